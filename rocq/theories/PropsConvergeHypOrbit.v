(** * C70 for the Orbit class: hyperbolic orbits under propagate *)
From Coq Require Import String Reals Lra List Bool Arith Lia ZArith QArith.
From Verif Require Import NP KeplerModel ConvModel UnitModel OrbitModel Lists ConvCols ArraySpec
  NPReal RealBase Spec AnomReal KepReal PropsKep CartInv PropsAnomaly PropsAnomalyR PropsSolver PropsScalar PropsCart
  EllState OrbitLists OrbitBase OrbitOps OrbitSetters OrbitGet OrbitSpec PropsOrbitWidth PropsOrbitDirect
  PropsOrbitLazy PropsOrbitWrite OrbitReal PropsOrbitType PropsOrbitProp PropsOrbitPropR PropsNewton PropsConvergeHyp.
Import ListNotations.
Local Open Scope R_scope.
Notation orb := (OrbitModel.orb num).

(** the stored anomaly [x] (radians) of type [t] has the hyperbolic eccentric anomaly [E] *)
Definition place (t : anomaly) (e x E : R) : Prop :=
  match t with ATrue => anomalies_hyp e x E | AEcc => E = x | AMean => e * sinh E - E = x end.

(** ** The column functions for e > 1 *)
Lemma branch_hyp (g : num) fh fp fe x e : 1 < e -> branch g fh fp fe x (Fin e) = fh x (Fin e).
Proof. intros. unfold branch. num. now rewrite Rltb_false, Reqb_false, Rltb_true by lra. Qed.
Lemma t2e1_hyp g deg nu e E : 1 < e -> anomalies_hyp e (ang deg nu) E -> in_circle E ->
  t2e1 g deg (Fin nu) (Fin e) = Fin (unang deg E).
Proof.
  intros He A C. unfold t2e1. rewrite inr_fin, branch_hyp by lra. destruct (hyp_inv e He _ _ A) as [P _].
  destruct (t2e_hyp_real e He (ang deg nu) P) as [E0 [-> [B _]]]. rewrite (hyp_unique e _ E0 E He B A), wrap_id by auto.
  apply outd_fin.
Qed.
Lemma e2t1_hyp g deg E e : 1 < e -> exists nu, e2t1 g deg (Fin E) (Fin e) = Fin nu
  /\ in_circle (ang deg nu) /\ anomalies_hyp e (ang deg nu) (ang deg E).
Proof.
  intros He. unfold e2t1. rewrite inr_fin, branch_hyp by lra.
  destruct (e2t_hyp_real e He (ang deg E)) as [n0 [-> [H _]]]. destruct (wrap_fin n0) as [nu [-> [W2 W3]]].
  rewrite outd_fin. exists (unang deg nu). rewrite ang_unang. split; [auto|]. split; [auto|].
  exact (hyp_compat e _ _ _ (cong_sym _ _ W3) H).
Qed.
Lemma e2m1_hyp g deg E e : 1 < e -> e2m1 g deg (Fin E) (Fin e) = Fin (unang deg (e * sinh (ang deg E) - ang deg E)).
Proof. intros He. unfold e2m1. rewrite inr_fin, branch_hyp by lra. unfold e2m_hyp. num. now rewrite outd_fin. Qed.
Lemma t2m1_hyp g deg nu e E : 1 < e -> anomalies_hyp e (ang deg nu) E -> in_circle E ->
  t2m1 g deg (Fin nu) (Fin e) = Fin (unang deg (e * sinh E - E)).
Proof.
  intros He A C. unfold t2m1. rewrite inr_fin, (t2e1_hyp (fst g) false _ e E) by auto. cbn [unang].
  rewrite e2m1_hyp by auto. apply outd_fin.
Qed.
Lemma m2e_el_hyp o t M e : 1 < e -> 0 <= M -> hyp_opts o t M e ->
  exists E, m2e_el o (Fin M) (Fin e) = Fin E /\ Rabs (e * sinh E - E - M) < t.
Proof.
  intros He HM [H1 [H2 [m [H3 H4]]]]. destruct (C70_solver_converges o t m M e He HM H2 H1 H3 H4) as [E [n [X [_ R]]]].
  exists E. split; auto. unfold m2e_el. num. rewrite Rltb_true, X by lra. reflexivity.
Qed.
Lemma m2e1_hyp o t deg M e : 1 < e -> 0 <= ang deg M -> hyp_opts o t (ang deg M) e ->
  exists E, m2e1 o deg (Fin M) (Fin e) = Fin E /\ Rabs (e * sinh (ang deg E) - ang deg E - ang deg M) < t.
Proof.
  intros He HM Ho. unfold m2e1. rewrite inr_fin. destruct (m2e_el_hyp o t _ e He HM Ho) as [E [-> H1]].
  rewrite outd_fin. exists (unang deg E). now rewrite ang_unang.
Qed.
Lemma m2t1_hyp g o t deg M e : 1 < e -> 0 <= ang deg M -> hyp_opts o t (ang deg M) e ->
  exists nu E, m2t1 g o deg (Fin M) (Fin e) = Fin nu /\ in_circle (ang deg nu) /\ anomalies_hyp e (ang deg nu) E
  /\ Rabs (e * sinh E - E - ang deg M) < t.
Proof.
  intros He HM Ho. unfold m2t1. rewrite inr_fin. destruct (m2e1_hyp o t false (ang deg M) e He HM Ho) as [E [-> H1]].
  destruct (e2t1_hyp g false E e He) as [nu [-> [H2 H3]]]. rewrite outd_fin.
  exists (unang deg nu), E. rewrite ang_unang. auto.
Qed.
Lemma hyp_opts_pos o t M e : 1 < e -> 0 <= M -> hyp_opts o t M e -> 0 < t.
Proof.
  intros He HM [_ [_ [m [H _]]]]. assert (0 < (9 / 10) ^ m) by (apply pow_lt; lra).
  assert (0 < 2 * (e + 2 * M + 3) * (9 / 10) ^ m) by (apply Rmult_lt_0_compat; lra). lra.
Qed.
(** the mean anomaly read from a stored column *)
Lemma ma1_hyp (s : orb) g (k : six R) E : 1 < s1 k -> place (otype s) (s1 k) (ang (odeg s) (s5 k)) E ->
  (otype s = ATrue -> in_circle E) -> ma1 s g (fin6 k) = Fin (unang (odeg s) (s1 k * sinh E - E)).
Proof.
  intros He P C. unfold ma1. rewrite row5_fin, row1_fin. destruct (otype s); cbn [place] in P.
  - apply t2m1_hyp; auto.
  - rewrite e2m1_hyp by auto. now rewrite <- P.
  - now rewrite P, unang_ang.
Qed.
(** the Cartesian state at true anomaly [nu] *)
Lemma cconv_hyp (s : orb) (k : six R) nu m mu : 0 < mu -> 0 < s0 k -> 0 <= s1 k -> 0 < 1 + s1 k * cos (ang (odeg s) nu) ->
  mu_real s m mu -> cconv s (Fin nu) (fin6 k) (Fin m) = fin6 (peri_state mu (radk (odeg s) k (ang (odeg s) nu))).
Proof.
  intros Hmu Ha He Hn Em. unfold cconv, mu_of. unfold mu_real in Em. rewrite Em.
  replace (set5 (fin6 k) (Fin nu)) with (fin6 (with_nu k nu)) by now destruct k.
  rewrite edit_ang. replace (radk (odeg s) (with_nu k nu) (ang (odeg s) (s5 (with_nu k nu))))
    with (radk (odeg s) k (ang (odeg s) nu)) by now destruct k.
  apply k2c_real. unfold valid_kep, k_a, k_e, k_nu, radk. cbn [s0 s1 s5]. auto.
Qed.
Lemma nu1_hyp (s : orb) g (k : six R) E T tl : 1 < s1 k -> place (otype s) (s1 k) (ang (odeg s) (s5 k)) E ->
  Rabs (s1 k * sinh E - E - T) < tl -> (otype s = AMean -> ang (odeg s) (s5 k) = T) -> 0 <= T -> hyp_opts (oopts s) tl T (s1 k) ->
  exists v E2, nu1 s g (fin6 k) = Fin v /\ anomalies_hyp (s1 k) (ang (odeg s) v) E2 /\ Rabs (s1 k * sinh E2 - E2 - T) < tl.
Proof.
  intros He P R Em T0 Ho. unfold nu1. rewrite row5_fin, row1_fin. destruct (otype s); cbn [place] in P.
  - exists (s5 k), E. auto.
  - destruct (e2t1_hyp g (odeg s) (s5 k) (s1 k) He) as [nu [-> [_ A]]]. exists nu, E. rewrite P in *. auto.
  - specialize (Em eq_refl). rewrite <- Em in T0, Ho.
    destruct (m2t1_hyp g (oopts s) tl (odeg s) (s5 k) (s1 k) He T0 Ho) as [nu [E2 [-> [_ [A B]]]]].
    exists nu, E2. rewrite <- Em. auto.
Qed.
Lemma hyp_M_inj e E E' : 1 < e -> e * sinh E - E = e * sinh E' - E' -> E = E'.
Proof.
  intros He H. assert (K : forall z, kepler_M e z = e * sinh z - z).
  { intros. unfold kepler_M. destruct (Rlt_dec e 1); [lra|]. destruct (Rlt_dec 1 e); lra. }
  destruct (Rtotal_order E E') as [L|[L|L]]; auto; apply (kepler_incr e) in L; try lra; rewrite !K in L; lra.
Qed.

(** ** propagate *)
(** Every anomaly type and mode: as long as the mean anomaly M + n dt lies in [0, 2 pi) (see C57 for what
    happens otherwise) the elements are advanced to it up to the solver's tolerance, and the Cartesian
    state read afterwards is a state of the Newtonian trajectory X, at a time that differs from d by less
    than tolerance / n. *)
Theorem C70_propagate : forall gb gb' n dt (s s' : orb) ks j (k : six R) m mu d tl E,
  aligned n s -> wfv dt -> propagate gb dt s = (s', Ok tt) ->
  snd (get_kepler gb s) = Ok ks -> nth_error ks j = Some (fin6 k) -> nth_error (om s) j = Some (Fin m) ->
  entry1 dt j (Fin d) -> 0 < mu -> mu_real s m mu -> 0 < s0 k -> 1 < s1 k ->
  place (otype s) (s1 k) (ang (odeg s) (s5 k)) E -> (otype s = ATrue -> in_circle E) ->
  let M := s1 k * sinh E - E in let T := M + rate mu (s0 k) * d in
  in_circle T -> hyp_opts (oopts s) tl T (s1 k) ->
  (exists ks' x' E', snd (get_kepler gb' s') = Ok ks' /\ nth_error ks' j = Some (fin6 (with_nu k x'))
    /\ place (otype s) (s1 k) (ang (odeg s) x') E' /\ Rabs (s1 k * sinh E' - E' - T) < tl)
  /\ (oauto s = true \/ odirect s = true -> forall X, follows mu (radk (odeg s) k 0) M X ->
      exists cs d', snd (get_cartesian gb' s') = Ok cs /\ nth_error cs j = Some (fin6 (X d'))
        /\ rate mu (s0 k) * Rabs (d' - d) < tl).
Proof.
  intros gb gb' n dt s s' ks j k m mu d tl E A Hd Ep Ek Hj Hm Hdt Hmu Em Ha He Hp Hc M T HT Ho.
  pose proof (hyp_opts_pos _ _ _ _ He (proj1 HT) Ho) as Tp.
  destruct (propagate_ok gb n dt s s' A Hd Ep) as [Hok [ds Hb]].
  destruct (propagate_spec gb n dt ds s A Hd Hok Hb) as [s2 [vs [E2 [A2 [Es [Eo [Eke [Lv [V [Rd [_ Rc]]]]]]]]]]].
  assert (s2 = s') by congruence. subst s2.
  rewrite (get_kepler_eq gb n) in Ek by apply A. cbn [snd] in Ek. injection Ek as Ek. rewrite <- Ek in Hj.
  assert (Ld : length ds = n) by (eapply bcast1_length; eauto using wfv_wf).
  assert (Hjn : (j < n)%nat) by (rewrite <- (l_k n _ (lens_kchk gb n s (proj1 A))); eapply nth_error_lt; eauto).
  assert (Hdj : nth_error ds j = Some (Fin d)).
  { destruct (nth_error ds j) as [y|] eqn:Ey; [|apply nth_error_None in Ey; lia].
    pose proof (bcast1_entry n dt ds j y Hd Hb Ey) as Q. destruct dt; cbn [entry1] in *; congruence. }
  destruct (V j _ _ _ Hj Hm Hdj) as [g [g' Hv]].
  rewrite (ma1_hyp s g k E He Hp Hc), row1_fin in Hv. replace (s0 (fin6 k)) with (Fin (s0 k)) in Hv by now destruct k.
  fold M in Hv. destruct (adv_real s (unang (odeg s) M) (s0 k) m mu d Ha Hmu Em) as [y [Ey [Hy [Ay _]]]]. rewrite Ey in Hv.
  assert (Ty : ang (odeg s) y = T) by (rewrite Ay, ang_unang; now apply Rmod_id).
  assert (Q : exists x' E', back1 s g' (Fin y) (Fin (s1 k)) = Fin x' /\ place (otype s) (s1 k) (ang (odeg s) x') E'
    /\ Rabs (s1 k * sinh E' - E' - T) < tl /\ (otype s = AMean -> ang (odeg s) x' = T)).
  { unfold back1. rewrite <- Ty in HT, Ho. destruct (otype s) eqn:Et; cbn [place].
    - destruct (m2t1_hyp g' (oopts s) tl (odeg s) y (s1 k) He (proj1 HT) Ho) as [nu [E' [-> [_ [W2 W3]]]]].
      exists nu, E'. rewrite <- Ty. split; [auto|]. split; [auto|]. split; [auto|discriminate].
    - destruct (m2e1_hyp (oopts s) tl (odeg s) y (s1 k) He (proj1 HT) Ho) as [E' [-> W]].
      exists E', (ang (odeg s) E'). rewrite <- Ty. split; [auto|]. split; [auto|]. split; [auto|discriminate].
    - destruct (hyp_root (s1 k) (ang (odeg s) y) He (proj1 HT)) as [E' [_ W]]. exists y, E'. rewrite <- Ty.
      split; [auto|]. split; [auto|]. split; [|auto]. rewrite <- W.
      replace (ang (odeg s) y - ang (odeg s) y) with 0 by ring. rewrite Rabs_R0. auto. }
  destruct Q as [x' [E' [Ex [P' [R' T']]]]]. rewrite Ex in Hv.
  assert (J' : nth_error (okep s') j = Some (fin6 (with_nu k x'))).
  { rewrite Eke, (set_row_nth 5 _ _ _ _ _ Hj Hv). now rewrite set5_fin. }
  split; [exists (okep s'), x', E'; split; [apply Rd|auto]|].
  intros Hau X HX.
  assert (Hz : lazy s = true \/ odirect s = true).
  { unfold lazy. destruct (odirect s); [auto|]. destruct Hau as [-> |?]; [auto|discriminate]. }
  destruct (Rc Hz gb' j _ _ J' (fin6_nan _) Hm) as [c [Hcc [gg Cc]]].
  destruct (nu1_hyp s gg (with_nu k x') E' T tl He P' R' T' (proj1 HT) Ho) as [v [E3 [Hnu [A3 R3]]]].
  rewrite Hnu in Cc. change (s1 (with_nu k x')) with (s1 k) in A3, R3.
  destruct (hyp_inv (s1 k) He _ _ A3) as [Pv _].
  rewrite (cconv_hyp s (with_nu k x') v m mu Hmu Ha ltac:(change (0 <= s1 k); lra) Pv Em) in Cc.
  change (radk (odeg s) (with_nu k x') (ang (odeg s) v)) with (radk (odeg s) k (ang (odeg s) v)) in Cc.
  set (r := rate mu (s0 k)) in *.
  assert (Hr : 0 < r).
  { unfold r, rate. apply sqrt_lt_R0, Rdiv_lt_0_compat; [auto|]. repeat apply Rmult_lt_0_compat; auto. }
  set (D := s1 k * sinh E3 - E3 - T) in *.
  rewrite (get_cartesian_eq gb' n) by apply A2. cbn [snd]. eexists. exists (d + D / r). split; [reflexivity|].
  split.
  2:{ replace (d + D / r - d) with (D / r) by ring. unfold Rdiv. rewrite Rabs_mult, (Rabs_right (/ r)).
      - replace (r * (Rabs D * / r)) with (Rabs D) by (field; lra). exact R3.
      - apply Rle_ge, Rlt_le, Rinv_0_lt_compat, Hr. }
  rewrite Hcc, Cc. do 2 f_equal. destruct (HX (d + D / r)) as [nu0 [E0 [An [Sm St]]]].
  change (k_e (radk (odeg s) k 0)) with (s1 k) in *. change (k_a (radk (odeg s) k 0)) with (s0 k) in *.
  pose proof (anom_valid mu (radk (odeg s) k 0) nu0 E0 Hmu Ha ltac:(change (0 <= s1 k); lra) An) as V0.
  rewrite (state_of_inv mu _ (X (d + D / r)) V0 St).
  unfold anomalies, same_mean, mean_rate, kepler_M in An, Sm. destruct (Rlt_dec (s1 k) 1); [lra|].
  destruct (Rlt_dec 1 (s1 k)); [|lra]. fold (rate mu (s0 k)) in Sm. fold r in Sm.
  assert (E0 = E3) as ->.
  { apply (hyp_M_inj (s1 k)); auto. rewrite Sm. replace (r * (d + D / r)) with (r * d + D) by (field; lra).
    unfold D, T. ring. }
  apply (radk_nu mu (odeg s) k). apply cong_sym. destruct An as [Y1 Y2], A3 as [Y3 Y4]. apply cos_sin_cong; congruence.
Qed.
(** a = 1, e = 2, eccentric anomaly 1, mu = 1, lazy mode, by dt = 1 *)
Example C70_propagate_example : forall gb, exists s s' X cs d',
  set_kepler gb (kvec (mk6 1 2 1 0 0 1)) (with_type AEcc (s_new true false)) = (s, Ok tt)
  /\ propagate gb (Sc (Fin 1)) s = (s', Ok tt) /\ follows 1 (mk6 1 2 1 0 0 0) (2 * sinh 1 - 1) X /\ newton 1 X
  /\ snd (get_cartesian gb s') = Ok cs /\ nth_error cs 0 = Some (fin6 (X d')) /\ Rabs (d' - 1) < / 1000000000000.
Proof.
  intros gb. pose (k := mk6 1 2 1 0 0 1). destruct (propagate_ready gb AEcc true k) as [s [E [A [Ht [Hg [Ho [Hm [Hm0 [Hk Hd]]]]]]]]].
  destruct (Hd 1) as [s' E']. pose proof PI2_3_2 as Hp. unfold PI2 in Hp.
  destruct (C56_trajectory 1 (mk6 1 2 1 0 0 0) (2 * sinh 1 - 1)) as [X [HX HN]]; [lra|unfold k_a; cbn; lra|unfold k_e; cbn; lra|].
  assert (R1 : rate 1 1 = 1) by (unfold rate; replace (1 / (1 * 1 * 1)) with 1 by field; apply sqrt_1).
  assert (Au : oauto s = true /\ oopts s = default_options).
  { destruct k; cbv [kvec] in E. cbv in E. injection E as <-. split; reflexivity. }
  pose proof (HypTrig.sh1 1 ltac:(lra)) as S1. pose proof (HypTrig.sh_u 1 ltac:(lra)) as S2.
  destruct (C70_propagate gb gb 1 (Sc (Fin 1)) s s' _ 0 k 0 1 1 (/ 1000000000000) 1 A I E' Hk eq_refl Hm0 eq_refl) as [_ Q];
    auto; try (cbn; lra).
  - rewrite Ht, Hg. reflexivity.
  - rewrite Ht. discriminate.
  - cbn [k s0 s1]. rewrite R1. split; lra.
  - cbn [k s0 s1]. rewrite R1, (proj2 Au). apply hyp_opts_default. apply Rle_trans with (10 ^ 4); [lra|].
    apply Rle_pow; [lra|]. repeat constructor.
  - destruct (Q (or_introl (proj1 Au)) X) as [cs [d' [Q1 [Q2 Q3]]]]; [rewrite Hg; exact HX|].
    change (s0 k) with 1 in Q3. rewrite R1, Rmult_1_l in Q3. exists s, s', X, cs, d'. auto 10.
Qed.
