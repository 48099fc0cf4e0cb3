(** * C55: propagate in exact arithmetic, elliptic orbits *)
From Coq Require Import Reals Lra List Bool Arith Lia ZArith QArith.
From Verif Require Import NP KeplerModel ConvModel UnitModel OrbitModel Lists ConvCols ArraySpec
  NPReal RealBase Spec AnomReal KepReal PropsKep CartInv PropsAnomaly PropsAnomalyR PropsSolver PropsScalar PropsCart
  OrbitLists OrbitBase OrbitOps OrbitSetters OrbitGet OrbitSpec PropsOrbitWidth PropsOrbitDirect PropsOrbitLazy
  PropsOrbitWrite OrbitReal PropsOrbitType PropsOrbitProp.
Import ListNotations.
Local Open Scope R_scope.
Notation orb := (OrbitModel.orb num).

(** [M] is the mean anomaly of the body with stored anomaly [x] of type [t] *)
Definition mean_of (t : anomaly) (e x M : R) : Prop := forall nu, body t e x nu <-> body AMean e M nu.
(** a full circle in the units of the object *)
Definition turn (deg : bool) : R := if deg then 360 else 2 * PI.
Lemma ang_turn deg : ang deg (turn deg) = 2 * PI. Proof. unfold ang, turn. destruct deg; field. Qed.
Lemma turn_pos deg : 0 < turn deg. Proof. pose proof PI_RGT_0. unfold turn. destruct deg; lra. Qed.
Lemma circle_real deg : circle deg = Fin (turn deg).
Proof. unfold circle, turn. destruct deg; [apply lit_360|]. rewrite lit_2. change npi with (Fin PI). rewrite Fin_mul. f_equal. ring. Qed.
Lemma ang_lin deg x y : ang deg (x + y) = ang deg x + ang deg y. Proof. unfold ang. destruct deg; ring. Qed.
Lemma ang_mul deg x y : ang deg (x * y) = ang deg x * y. Proof. unfold ang. destruct deg; ring. Qed.
Lemma ang_Rmod deg x : ang deg (Rmod x (turn deg)) = Rmod (ang deg x) (2 * PI).
Proof.
  pose proof PI_RGT_0 as Hp. destruct (Rmod_spec x (turn deg) (turn_pos deg)) as [[H1 H2] [n H3]]. symmetry.
  apply Rmod_unique; [lra| |exists n; now rewrite H3, ang_lin, ang_mul, ang_turn].
  rewrite <- (ang_turn deg). unfold ang. destruct deg; [|auto].
  assert (0 < PI / 180) by lra. split; [apply Rmult_le_pos; lra|apply Rmult_lt_compat_r; lra].
Qed.
(** the mean motion *)
Definition rate (mu a : R) : R := sqrt (mu / (a * a * a)).
Lemma motion_real (s : orb) a m mu : 0 < a -> 0 < mu -> mu_real s m mu ->
  exists n, motion1 s (Fin a) (Fin m) = Fin n /\ ang (odeg s) n = rate mu a.
Proof.
  intros Ha Hm Em. pose proof PI_RGT_0 as Hp. unfold motion1, mu_of. unfold mu_real in Em. rewrite Em.
  destruct (C27_kepler_three mu Hm) as [K _]. destruct (K a Ha) as [P [HP [-> [K3 _]]]].
  rewrite circle_real, Fin_div by lra. exists (turn (odeg s) / P). split; [auto|].
  replace (ang (odeg s) (turn (odeg s) / P)) with (2 * PI / P) by (rewrite <- (ang_turn (odeg s)); unfold Rdiv; now rewrite ang_mul).
  unfold rate. symmetry. apply sqrt_lem_1.
  - apply Rlt_le, Rdiv_lt_0_compat; [lra|]. repeat apply Rmult_lt_0_compat; lra.
  - apply Rlt_le, Rdiv_lt_0_compat; lra.
  - assert (0 < a * a * a) by (repeat apply Rmult_lt_0_compat; lra).
    apply (Rmult_eq_reg_r (P * P * (a * a * a))); [|assert (0 < P * P) by (apply Rmult_lt_0_compat; lra); apply Rgt_not_eq, Rmult_lt_0_compat; lra].
    transitivity (4 * (PI * PI) * (a * a * a)); [field; lra|]. rewrite <- K3. field. repeat split; lra.
Qed.
Lemma adv_real (s : orb) M a m mu d : 0 < a -> 0 < mu -> mu_real s m mu ->
  exists x, adv s (Fin M) (Fin a) (Fin m) (Fin d) = Fin x
  /\ 0 <= x < turn (odeg s) /\ ang (odeg s) x = Rmod (ang (odeg s) M + rate mu a * d) (2 * PI)
  /\ exists n z, x = M + n * d + turn (odeg s) * IZR z /\ ang (odeg s) n = rate mu a.
Proof.
  intros Ha Hm Em. destruct (motion_real s a m mu Ha Hm Em) as [n [En Hn]]. unfold adv. rewrite En, Fin_mul, Fin_add.
  replace (if odeg s then lit 360 else mul (lit 2) npi) with (Fin (turn (odeg s))).
  2:{ unfold turn. destruct (odeg s); [now rewrite lit_360|]. rewrite lit_2. change npi with (Fin PI). now rewrite Fin_mul. }
  pose proof (turn_pos (odeg s)). rewrite Fin_mod by lra.
  destruct (Rmod_spec (M + n * d) (turn (odeg s)) (turn_pos _)) as [H1 [z H2]].
  eexists. split; [reflexivity|]. split; [auto|]. split; [|exists n, z; auto].
  now rewrite ang_Rmod, ang_lin, ang_mul, Hn.
Qed.
Lemma mean_cong e M M' : 0 <= e < 1 -> (exists nu, body AMean e M nu /\ body AMean e M' nu) -> cong2pi M M'.
Proof.
  intros He [nu [[E [A1 A2]] [E' [B1 B2]]]]. apply (cong_trans _ _ _ A1). apply cong_sym. apply (cong_trans _ _ _ B1).
  apply kepler_shift. exact (ell_cong_r e He nu E' E B2 A2).
Qed.
Lemma mean_of_unique t e x M M' : 0 <= e < 1 -> mean_of t e x M -> mean_of t e x M' -> cong2pi M M'.
Proof.
  intros He A B. destruct (body_ex e He t x) as [nu Hn]. apply (mean_cong e); auto. exists nu. split; [now apply A|now apply B].
Qed.
Lemma mean_of_ex t e x : 0 <= e < 1 -> exists M, mean_of t e x M.
Proof.
  intros He. destruct (body_ex e He t x) as [nu Hn]. destruct (t2e_eli_real e He nu) as [E [_ [_ HE]]].
  exists (E - e * sin E). exact (body_same e He t x AMean _ nu Hn (body_shift e _ E nu (cong_refl _) HE)).
Qed.
Lemma mean_of_mean e x M : 0 <= e < 1 -> (mean_of AMean e x M <-> cong2pi x M).
Proof.
  intros He. split.
  - intros A. apply (mean_of_unique AMean e x x M); auto. intros nu. tauto.
  - intros C nu. cbn [body]. split; intros [E [A B]]; exists E; (split; [|auto]).
    + exact (cong_trans _ _ _ (cong_sym _ _ C) A).
    + exact (cong_trans _ _ _ C A).
Qed.

(** After propagate, orbit [j] has the same a, e, i, omega, Omega; its mean anomaly is
    M + sqrt(mu/a^3) dt modulo a full circle, exactly for type mean and within the tolerance for the
    other types when the solver stops. Every update mode, degrees or radians, any number of orbits. *)
Theorem C55_advance : forall gb gb' n dt (s s' : orb) ks j (k : six R) m mu d tl,
  aligned n s -> wfv dt -> propagate gb dt s = (s', Ok tt) ->
  snd (get_kepler gb s) = Ok ks -> nth_error ks j = Some (fin6 k) -> nth_error (om s) j = Some (Fin m) ->
  entry1 dt j (Fin d) -> 0 < mu -> mu_real s m mu -> 0 < s0 k -> 0 <= s1 k < 1 -> opts_ok (oopts s) tl ->
  exists ks' x, snd (get_kepler gb' s') = Ok ks' /\ nth_error ks' j = Some (fin6 (with_nu k x))
  /\ aligned n s' /\ settings s' = settings s /\ om s' = om s
  /\ forall M T, mean_of (otype s) (s1 k) (ang (odeg s) (s5 k)) M ->
       in_circle T -> cong2pi T (M + rate mu (s0 k) * d) ->
       (otype s = AMean -> ang (odeg s) x = T)
       /\ (solved (oopts s) T (s1 k) ->
           exists M', mean_of (otype s) (s1 k) (ang (odeg s) x) M' /\ Rabs (M' - T) < tl).
Proof.
  intros gb gb' n dt s s' ks j k m mu d tl A Hd E Ek Hj Hm Hdt Hmu Em Ha He Hop.
  destruct (propagate_ok gb n dt s s' A Hd E) as [Ho [ds Hb]].
  destruct (propagate_spec gb n dt ds s A Hd Ho Hb) as [s2 [vs [E2 [A2 [Es [Eo [Eke [Lv [V [Rd _]]]]]]]]]].
  assert (s2 = s') by congruence. subst s2.
  rewrite (get_kepler_eq gb n) in Ek by apply A. cbn [snd] in Ek. injection Ek as Ek. rewrite <- Ek in Hj.
  assert (Ld : length ds = n) by (eapply bcast1_length; eauto using wfv_wf).
  assert (Hjn : (j < n)%nat) by (rewrite <- (l_k n _ (lens_kchk gb n s (proj1 A))); eapply nth_error_lt; eauto).
  assert (Hdj : nth_error ds j = Some (Fin d)).
  { destruct (nth_error ds j) as [y|] eqn:Ey; [|apply nth_error_None in Ey; lia].
    pose proof (bcast1_entry n dt ds j y Hd Hb Ey) as Q. destruct dt; cbn [entry1] in *; congruence. }
  destruct (V j _ _ _ Hj Hm Hdj) as [g [g' Hv]].
  destruct (anom1_body AMean s g k He (or_intror eq_refl)) as [x0 [Ex0 B0]]. cbn [anom1] in Ex0. rewrite Ex0 in Hv.
  rewrite row1_fin in Hv. replace (s0 (fin6 k)) with (Fin (s0 k)) in Hv by now destruct k.
  destruct (adv_real s x0 (s0 k) m mu d Ha Hmu Em) as [y [Ey [Hy [Ay _]]]]. rewrite Ey in Hv.
  assert (Ty : forall M T, mean_of (otype s) (s1 k) (ang (odeg s) (s5 k)) M -> in_circle T ->
     cong2pi T (M + rate mu (s0 k) * d) -> ang (odeg s) y = T).
  { intros M T HM HT CT. rewrite Ay. pose proof PI_RGT_0 as Hp. apply Rmod_unique; [lra|exact HT|].
    assert (C : cong2pi T (ang (odeg s) x0 + rate mu (s0 k) * d)).
    { apply (cong_trans _ _ _ CT). destruct (mean_of_unique (otype s) (s1 k) _ M (ang (odeg s) x0) He HM B0) as [z Hz].
      exists z. rewrite Hz. ring. }
    destruct C as [z Hz]. exists z. rewrite Hz. ring. }
  assert (Q : exists x, back1 s g' (Fin y) (Fin (s1 k)) = Fin x /\
    forall T, ang (odeg s) y = T -> (otype s = AMean -> ang (odeg s) x = T)
       /\ (solved (oopts s) T (s1 k) -> exists M', mean_of (otype s) (s1 k) (ang (odeg s) x) M' /\ Rabs (M' - T) < tl)).
  { unfold back1. destruct (otype s) eqn:Et.
    - destruct (m2t1_ell g' (oopts s) tl (odeg s) y (s1 k) He Hop) as [nu [E0 [-> [_ [W2 W3]]]]]. exists nu. split; [auto|].
      intros T <-. split; [discriminate|]. intros Hso. exists (E0 - s1 k * sin E0). split; [|auto].
      exact (body_same (s1 k) He ATrue _ AMean _ (ang (odeg s) nu) (cong_refl _) (body_shift (s1 k) _ E0 _ (cong_refl _) W2)).
    - destruct (m2e1_ell (oopts s) tl (odeg s) y (s1 k) He Hop) as [E0 [-> W]]. exists E0. split; [auto|].
      intros T <-. split; [discriminate|]. intros Hso. exists (ang (odeg s) E0 - s1 k * sin (ang (odeg s) E0)). split; [|auto].
      destruct (body_ex (s1 k) He AEcc (ang (odeg s) E0)) as [nu Hn].
      exact (body_same (s1 k) He AEcc _ AMean _ nu Hn (body_shift (s1 k) _ _ _ (cong_refl _) Hn)).
    - exists y. split; [auto|]. intros T <-. split; [auto|]. intros _. exists (ang (odeg s) y). split; [intros nu; tauto|].
      replace (ang (odeg s) y - ang (odeg s) y) with 0 by ring. rewrite Rabs_R0. apply Hop. }
  destruct Q as [x [Ex HT]]. rewrite Ex in Hv. exists (okep s'), x. split; [apply Rd|].
  split; [rewrite Eke, (set_row_nth 5 _ _ _ _ _ Hj Hv); f_equal; apply set5_fin|].
  split; [auto|]. split; [auto|]. split; [auto|]. intros M T HM Hi HC. apply HT. eauto.
Qed.
Lemma ang_inj deg x y : ang deg x = ang deg y -> x = y.
Proof. intros E. rewrite <- (unang_ang deg x), <- (unang_ang deg y). now rewrite E. Qed.
Lemma fin6_nu k x y : x = y -> fin6 (with_nu k x) = fin6 (with_nu k y). Proof. now intros ->. Qed.
Lemma circle_ex y : exists T, in_circle T /\ cong2pi T y.
Proof. exists (Rmod y (2 * PI)). apply Rmod_2pi. Qed.
Lemma circle_eq T T' : in_circle T -> in_circle T' -> cong2pi T T' -> T = T'.
Proof.
  intros H1 H2 C. apply Rmod_cong_iff in C. now rewrite !Rmod_id in C by auto.
Qed.

(** Type mean: dt1 followed by dt2 is dt1 + dt2, exactly. *)
Theorem C55_additive : forall gb n dt1 dt2 dt (s sa sb s' : orb) ks j (k : six R) m mu d1 d2 tl,
  aligned n s -> wfv dt1 -> wfv dt2 -> wfv dt -> otype s = AMean ->
  propagate gb dt1 s = (sa, Ok tt) -> propagate gb dt2 sa = (sb, Ok tt) -> propagate gb dt s = (s', Ok tt) ->
  snd (get_kepler gb s) = Ok ks -> nth_error ks j = Some (fin6 k) -> nth_error (om s) j = Some (Fin m) ->
  entry1 dt1 j (Fin d1) -> entry1 dt2 j (Fin d2) -> entry1 dt j (Fin (d1 + d2)) ->
  0 < mu -> mu_real s m mu -> 0 < s0 k -> 0 <= s1 k < 1 -> opts_ok (oopts s) tl ->
  exists kb k' x, snd (get_kepler gb sb) = Ok kb /\ snd (get_kepler gb s') = Ok k'
  /\ nth_error kb j = Some (fin6 (with_nu k x)) /\ nth_error k' j = Some (fin6 (with_nu k x)).
Proof.
  intros gb n dt1 dt2 dt s sa sb s' ks j k m mu d1 d2 tl A W1 W2 W Ht E1 E2 E Ek Hj Hm H1 H2 H3 Hmu Em Ha He Hop.
  destruct (C55_advance gb gb n dt1 s sa ks j k m mu d1 tl A W1 E1 Ek Hj Hm H1 Hmu Em Ha He Hop)
    as [ka [xa [Ra [Ja [Aa [Sa [Ma Pa]]]]]]].
  pose proof Sa as Sa'. apply settings_eq in Sa'. destruct Sa' as [Q1 [Q2 [_ [_ [_ [_ [Q3 [Q4 Q5]]]]]]]].
  assert (Em' : mu_real sa m mu) by (unfold mu_real; now rewrite Q1, Q2).
  assert (Hop' : opts_ok (oopts sa) tl) by now rewrite Q5.
  rewrite <- Ma in Hm.
  destruct (C55_advance gb gb n dt2 sa sb ka j (with_nu k xa) m mu d2 tl Aa W2 E2 Ra Ja Hm H2 Hmu Em' Ha He Hop')
    as [kb [xb [Rb [Jb [_ [_ [_ Pb]]]]]]].
  rewrite Ma in Hm.
  destruct (C55_advance gb gb n dt s s' ks j k m mu (d1 + d2) tl A W E Ek Hj Hm H3 Hmu Em Ha He Hop)
    as [k' [x' [R' [J' [_ [_ [_ P']]]]]]].
  exists kb, k', x'. split; [auto|]. split; [auto|]. split; [|auto].
  replace (with_nu (with_nu k xa) xb) with (with_nu k xb) in Jb by reflexivity.
  rewrite Jb. f_equal. apply fin6_nu. apply (ang_inj (odeg s)). rewrite Q3, Q4, Ht in Pb. rewrite Ht in Pa, P'.
  set (M := ang (odeg s) (s5 k)) in *. set (r := rate mu (s0 k)) in *.
  destruct (circle_ex (M + r * d1)) as [T1 [I1 C1]]. destruct (circle_ex (M + r * (d1 + d2))) as [T [I C]].
  assert (Mm : forall y, mean_of AMean (s1 k) y y) by (intros y nu; tauto).
  destruct (Pa M T1 (Mm _) I1 C1) as [Ha1 _]. specialize (Ha1 eq_refl).
  assert (Cb : cong2pi T (ang (odeg s) xa + r * d2)).
  { rewrite Ha1. apply (cong_trans _ _ _ C). destruct C1 as [z Hz]. exists (- z)%Z. rewrite Hz, opp_IZR. ring. }
  destruct (Pb (ang (odeg s) xa) T (Mm _) I Cb) as [Hb1 _]. destruct (P' M T (Mm _) I C) as [Hb2 _].
  rewrite Hb1, Hb2; auto.
Qed.
(** Type mean, stored anomaly in [0, circle): an interval of any whole number of periods (0 included)
    changes nothing, exactly. Other types: the mean anomaly moves by less than the tolerance. *)
Lemma period_rate mu a P : 0 < a -> 0 < mu -> orbital_period (Fin a) (Fin mu) = Fin P -> rate mu a * P = 2 * PI.
Proof.
  intros Ha Hm EP. pose proof PI_RGT_0 as Hp. destruct (C27_kepler_three mu Hm) as [K _]. destruct (K a Ha) as [Q [HQ [E [K3 _]]]].
  assert (P = Q) by congruence. subst P. clear K E EP.
  unfold rate. apply (Rmult_eq_reg_r (/ Q)); [|apply Rinv_neq_0_compat; lra].
  replace (sqrt (mu / (a * a * a)) * Q * / Q) with (sqrt (mu / (a * a * a))) by (field; lra).
  assert (H3 : 0 < a * a * a) by (repeat apply Rmult_lt_0_compat; lra).
  assert (H4 : 0 < Q * Q) by (apply Rmult_lt_0_compat; lra).
  apply sqrt_lem_1.
  - apply Rlt_le, Rdiv_lt_0_compat; lra.
  - apply Rlt_le, Rdiv_lt_0_compat; lra.
  - apply (Rmult_eq_reg_r (Q * Q * (a * a * a))); [|apply Rgt_not_eq, Rmult_lt_0_compat; lra].
    transitivity (4 * (PI * PI) * (a * a * a)); [field; lra|]. rewrite <- K3. field. lra.
Qed.
Theorem C55_periodic : forall gb n dt (s s' : orb) ks j (k : six R) m mu d tl P (z : Z),
  aligned n s -> wfv dt -> propagate gb dt s = (s', Ok tt) ->
  snd (get_kepler gb s) = Ok ks -> nth_error ks j = Some (fin6 k) -> nth_error (om s) j = Some (Fin m) ->
  entry1 dt j (Fin d) -> 0 < mu -> mu_real s m mu -> 0 < s0 k -> 0 <= s1 k < 1 -> opts_ok (oopts s) tl ->
  orbital_period (Fin (s0 k)) (Fin mu) = Fin P -> d = IZR z * P ->
  exists k' x, snd (get_kepler gb s') = Ok k' /\ nth_error k' j = Some (fin6 (with_nu k x))
  /\ (otype s = AMean -> in_circle (ang (odeg s) (s5 k)) -> fin6 (with_nu k x) = fin6 k)
  /\ (forall M, mean_of (otype s) (s1 k) (ang (odeg s) (s5 k)) M -> in_circle M -> solved (oopts s) M (s1 k) ->
       exists M', mean_of (otype s) (s1 k) (ang (odeg s) x) M' /\ Rabs (M' - M) < tl).
Proof.
  intros gb n dt s s' ks j k m mu d tl P z A W E Ek Hj Hm Hd Hmu Em Ha He Hop HP Hz.
  destruct (C55_advance gb gb n dt s s' ks j k m mu d tl A W E Ek Hj Hm Hd Hmu Em Ha He Hop)
    as [k' [x' [R' [J' [_ [_ [_ P']]]]]]]. exists k', x'. split; [auto|]. split; [auto|].
  pose proof (period_rate mu (s0 k) P Ha Hmu HP) as HR.
  assert (C : forall M, cong2pi M (M + rate mu (s0 k) * d)).
  { intros M. exists (- z)%Z. rewrite Hz, opp_IZR. replace (rate mu (s0 k) * (IZR z * P)) with (IZR z * (rate mu (s0 k) * P)) by ring.
    rewrite HR. ring. }
  split.
  - intros Ht Hi. rewrite Ht in P'. destruct (P' (ang (odeg s) (s5 k)) (ang (odeg s) (s5 k))) as [Q _]; auto.
    { intros nu. tauto. }
    specialize (Q eq_refl). apply ang_inj in Q. rewrite Q. now destruct k.
  - intros M HM Hi Hso. destruct (P' M M HM Hi (C M)) as [_ Q]. auto.
Qed.
(** Types true and eccentric: dt1 followed by dt2 and dt1 + dt2 give mean anomalies that differ by
    less than three tolerances modulo a full circle, when the solver stops. *)
Theorem C55_additive_tol : forall gb n dt1 dt2 dt (s sa sb s' : orb) ks j (k : six R) m mu d1 d2 tl,
  aligned n s -> wfv dt1 -> wfv dt2 -> wfv dt ->
  propagate gb dt1 s = (sa, Ok tt) -> propagate gb dt2 sa = (sb, Ok tt) -> propagate gb dt s = (s', Ok tt) ->
  snd (get_kepler gb s) = Ok ks -> nth_error ks j = Some (fin6 k) -> nth_error (om s) j = Some (Fin m) ->
  entry1 dt1 j (Fin d1) -> entry1 dt2 j (Fin d2) -> entry1 dt j (Fin (d1 + d2)) ->
  0 < mu -> mu_real s m mu -> 0 < s0 k -> 0 <= s1 k < 1 -> opts_ok (oopts s) tl ->
  (forall T, in_circle T -> solved (oopts s) T (s1 k)) ->
  exists kb k' x x' M M' z, snd (get_kepler gb sb) = Ok kb /\ snd (get_kepler gb s') = Ok k'
  /\ nth_error kb j = Some (fin6 (with_nu k x)) /\ nth_error k' j = Some (fin6 (with_nu k x'))
  /\ mean_of (otype s) (s1 k) (ang (odeg s) x) M /\ mean_of (otype s) (s1 k) (ang (odeg s) x') M'
  /\ Rabs (M - M' - 2 * PI * IZR z) < 3 * tl.
Proof.
  intros gb n dt1 dt2 dt s sa sb s' ks j k m mu d1 d2 tl A W1 W2 W E1 E2 E Ek Hj Hm H1 H2 H3 Hmu Em Ha He Hop Hso.
  destruct (C55_advance gb gb n dt1 s sa ks j k m mu d1 tl A W1 E1 Ek Hj Hm H1 Hmu Em Ha He Hop)
    as [ka [xa [Ra [Ja [Aa [Sa [Ma Pa]]]]]]].
  pose proof Sa as Sa'. apply settings_eq in Sa'. destruct Sa' as [Q1 [Q2 [_ [_ [_ [_ [Q3 [Q4 Q5]]]]]]]].
  assert (Em' : mu_real sa m mu) by (unfold mu_real; now rewrite Q1, Q2).
  assert (Hop' : opts_ok (oopts sa) tl) by now rewrite Q5.
  rewrite <- Ma in Hm.
  destruct (C55_advance gb gb n dt2 sa sb ka j (with_nu k xa) m mu d2 tl Aa W2 E2 Ra Ja Hm H2 Hmu Em' Ha He Hop')
    as [kb [xb [Rb [Jb [_ [_ [_ Pb]]]]]]].
  rewrite Ma in Hm.
  destruct (C55_advance gb gb n dt s s' ks j k m mu (d1 + d2) tl A W E Ek Hj Hm H3 Hmu Em Ha He Hop)
    as [k' [x' [R' [J' [_ [_ [_ P']]]]]]].
  change (with_nu (with_nu k xa) xb) with (with_nu k xb) in Jb. change (s1 (with_nu k xa)) with (s1 k) in Pb.
  change (s5 (with_nu k xa)) with xa in Pb. change (s0 (with_nu k xa)) with (s0 k) in Pb. rewrite Q3, Q4, Q5 in Pb.
  set (r := rate mu (s0 k)) in *. destruct (mean_of_ex (otype s) (s1 k) (ang (odeg s) (s5 k)) He) as [M0 HM0].
  destruct (circle_ex (M0 + r * d1)) as [T1 [I1 C1]]. destruct (Pa M0 T1 HM0 I1 C1) as [_ Pa1].
  destruct (Pa1 (Hso T1 I1)) as [M1 [HM1 B1]].
  destruct (circle_ex (M1 + r * d2)) as [T2 [I2 C2]]. destruct (Pb M1 T2 HM1 I2 C2) as [_ Pb1].
  destruct (Pb1 (Hso T2 I2)) as [M2 [HM2 B2]].
  destruct (circle_ex (M0 + r * (d1 + d2))) as [T3 [I3 C3]]. destruct (P' M0 T3 HM0 I3 C3) as [_ P3].
  destruct (P3 (Hso T3 I3)) as [M3 [HM3 B3]].
  destruct C1 as [z1 Hz1], C2 as [z2 Hz2], C3 as [z3 Hz3].
  exists kb, k', xb, x', M2, M3, (z1 + z2 - z3)%Z.
  split; [auto|]. split; [auto|]. split; [auto|]. split; [auto|]. split; [auto|]. split; [auto|].
  rewrite minus_IZR, plus_IZR.
  replace (M2 - M3 - 2 * PI * (IZR z1 + IZR z2 - IZR z3)) with ((M2 - T2) - (M3 - T3) + (M1 - T1)) by (rewrite Hz1, Hz2, Hz3; ring).
  apply Rabs_def2 in B1, B2, B3. apply Rabs_def1; lra.
Qed.

(** a lazy object of type [t] holding one orbit (radians, mu = 1) that meets the hypotheses for every interval *)
Lemma propagate_ready gb t au (k : six R) : exists s,
  set_kepler gb (kvec k) (with_type t (s_new au false)) = (s, Ok tt) /\ aligned 1 s /\ otype s = t /\ odeg s = false
  /\ opts_ok (oopts s) 1e-12 /\ mu_real s 0 1 /\ nth_error (om s) 0 = Some (Fin 0)
  /\ snd (get_kepler gb s) = Ok [fin6 k] /\ forall d, exists s', propagate gb (Sc (Fin d)) s = (s', Ok tt).
Proof.
  pose (s := aft_kep gb (with_kep (fun _ => [fin6 k]) (with_type t (s_new au false)))).
  assert (A : aligned 1 s).
  { split; [now constructor|]. exists [nan]. auto. }
  exists s. split; [unfold s, kvec; destruct k; reflexivity|]. split; [exact A|]. split; [reflexivity|]. split; [reflexivity|]. split.
  { split; [unfold s; cbn; num; f_equal; lra|]. split; [lra|]. exists 5. split; [unfold s; cbn; num; f_equal; lra|lra]. }
  split; [unfold mu_real, s; cbn; num; f_equal; lra|]. split; [cbn [om s nth_error]; unfold s; cbn; num; repeat f_equal; lra|].
  split.
  { rewrite (get_kepler_eq gb 1) by apply A. cbn [snd]. f_equal. apply (kchk_keeps gb 1); [apply A|].
    intros _ j c Hc. right. destruct j as [|[|j]]; cbn in Hc; try discriminate. injection Hc as <-. apply has_nan_iff. reflexivity. }
  intros d. destruct (propagate_spec gb 1 (Sc (Fin d)) [Fin d] s A) as [s' [_ [E _]]]; [exact I|reflexivity|reflexivity|].
  now exists s'.
Qed.
(** a = 1, e = 1/2, i = pi/2, M = pi, lazy, type mean: after d = pi/4 it stores 5 pi/4; after 2 pi it is back *)
Example C55_example : forall gb, exists s s' sp,
  set_kepler gb (kvec (ktp PI)) (with_type AMean (s_new true false)) = (s, Ok tt)
  /\ propagate gb (Sc (Fin (PI / 4))) s = (s', Ok tt) /\ propagate gb (Sc (Fin (2 * PI))) s = (sp, Ok tt)
  /\ snd (get_kepler gb s') <> snd (get_kepler gb s)
  /\ (exists k', snd (get_kepler gb s') = Ok k' /\ nth_error k' 0 = Some (fin6 (ktp (5 * PI / 4))))
  /\ (exists k', snd (get_kepler gb sp) = Ok k' /\ nth_error k' 0 = Some (fin6 (ktp PI))).
Proof.
  intros gb. pose proof PI_RGT_0 as Hp. destruct (propagate_ready gb AMean true (ktp PI)) as [s [E [A [Ht [Hg [Ho [Hm [Hm0 [Hk Hd]]]]]]]]].
  destruct (Hd (PI / 4)) as [s' E']. destruct (Hd (2 * PI)) as [sp Ep]. exists s, s', sp.
  split; [auto|]. split; [auto|]. split; [auto|].
  assert (R1 : rate 1 1 = 1) by (unfold rate; replace (1 / (1 * 1 * 1)) with 1 by field; apply sqrt_1).
  assert (Q : exists k', snd (get_kepler gb s') = Ok k' /\ nth_error k' 0 = Some (fin6 (ktp (5 * PI / 4)))).
  { destruct (C55_advance gb gb 1 (Sc (Fin (PI / 4))) s s' _ 0 (ktp PI) 0 1 (PI / 4) 1e-12 A I E' Hk eq_refl Hm0 eq_refl)
      as [k' [x [R' [J [_ [_ [_ P]]]]]]]; auto; try (cbn; lra).
    exists k'. split; [auto|]. rewrite J. do 2 f_equal. change (with_nu (ktp PI) x) with (ktp x). f_equal.
    rewrite Ht, Hg in P. destruct (P PI (5 * PI / 4)) as [P1 _].
    - apply mean_of_mean; [cbn; lra|apply cong_refl].
    - split; lra.
    - exists 0%Z. change (s0 (ktp PI)) with 1. rewrite R1. field.
    - exact (P1 eq_refl). }
  split.
  { destruct Q as [k' [Q1 Q2]]. rewrite Q1, Hk. intros X. injection X as ->. cbn in Q2. injection Q2 as Q2. lra. }
  split; [exact Q|].
  destruct (C27_kepler_three 1) as [K _]; [lra|]. destruct (K 1) as [P [HP [EP _]]]; [lra|].
  assert (P = 2 * PI) as ->.
  { pose proof (period_rate 1 1 P ltac:(lra) ltac:(lra) EP) as X. rewrite R1 in X. lra. }
  destruct (C55_periodic gb 1 (Sc (Fin (2 * PI))) s sp _ 0 (ktp PI) 0 1 (2 * PI) 1e-12 (2 * PI) 1 A I Ep Hk eq_refl Hm0 eq_refl)
    as [k' [x [R' [J [P1 _]]]]]; auto; try (cbn; lra).
  exists k'. split; [auto|]. rewrite J. f_equal. apply P1; auto. rewrite Hg. split; cbn; lra.
Qed.
(** circular orbit, type true (the solver needs no iteration), intervals 1 and 2 *)
Example C55_additive_example : forall gb, exists s sa sb s' k', s5 k' = 1 /\
  set_kepler gb (kvec k') (with_type ATrue (s_new true false)) = (s, Ok tt)
  /\ propagate gb (Sc (Fin 1)) s = (sa, Ok tt) /\ propagate gb (Sc (Fin 2)) sa = (sb, Ok tt)
  /\ propagate gb (Sc (Fin (1 + 2))) s = (s', Ok tt)
  /\ (forall T, in_circle T -> solved (oopts s) T (s1 k')) /\ snd (get_kepler gb s) = Ok [fin6 k'].
Proof.
  intros gb. pose (k := mk6 1 0 0 0 0 1). destruct (propagate_ready gb ATrue true k) as [s [E [A [Ht [Hg [Ho [Hm [Hm0 [Hk Hd]]]]]]]]].
  destruct (Hd 1) as [sa Ea]. destruct (Hd (1 + 2)) as [s' E'].
  destruct (propagate_spec gb 1 (Sc (Fin 1)) [Fin 1] s A I) as [sx [_ [Ex [Ax [Sx _]]]]]; [|reflexivity|].
  { destruct (propagate_ok gb 1 (Sc (Fin 1)) s sa A I Ea) as [? _]. auto. }
  assert (sx = sa) by congruence. subst sx.
  destruct (propagate_spec gb 1 (Sc (Fin 2)) [Fin 2] sa Ax I) as [sb [_ [Eb _]]]; [|reflexivity|].
  { destruct (propagate_ok gb 1 (Sc (Fin 1)) s sa A I Ea) as [? _]. apply settings_eq in Sx. destruct Sx as [_ [_ [_ [_ [Sx _]]]]]. congruence. }
  exists s, sa, sb, s', k. split; [reflexivity|]. split; [auto|]. split; [auto|]. split; [auto|]. split; [auto|].
  split; [|auto]. intros T _. left. reflexivity.
Qed.

(** ** C57 *)
(** What propagate does to a stored mean anomaly, whatever the eccentricity: it adds sqrt(mu/a^3) dt and
    reduces to [0, circle). So hyperbolic orbits are right as long as the sum stays in that range. *)
Theorem C57_mean_partial : forall gb gb' n dt (s s' : orb) ks j (k : six R) m mu d,
  aligned n s -> wfv dt -> otype s = AMean -> propagate gb dt s = (s', Ok tt) ->
  snd (get_kepler gb s) = Ok ks -> nth_error ks j = Some (fin6 k) -> nth_error (om s) j = Some (Fin m) ->
  entry1 dt j (Fin d) -> 0 < mu -> mu_real s m mu -> 0 < s0 k ->
  exists ks' x, snd (get_kepler gb' s') = Ok ks' /\ nth_error ks' j = Some (fin6 (with_nu k x))
  /\ in_circle (ang (odeg s) x) /\ cong2pi (ang (odeg s) x) (ang (odeg s) (s5 k) + rate mu (s0 k) * d)
  /\ (in_circle (ang (odeg s) (s5 k) + rate mu (s0 k) * d) ->
      ang (odeg s) x = ang (odeg s) (s5 k) + rate mu (s0 k) * d).
Proof.
  intros gb gb' n dt s s' ks j k m mu d A Hd Ht E Ek Hj Hm Hdt Hmu Em Ha.
  destruct (propagate_ok gb n dt s s' A Hd E) as [Ho [ds Hb]].
  destruct (propagate_spec gb n dt ds s A Hd Ho Hb) as [s2 [vs [E2 [A2 [Es [Eo [Eke [Lv [V [Rd _]]]]]]]]]].
  assert (s2 = s') by congruence. subst s2.
  rewrite (get_kepler_eq gb n) in Ek by apply A. cbn [snd] in Ek. injection Ek as Ek. rewrite <- Ek in Hj.
  assert (Ld : length ds = n) by (eapply bcast1_length; eauto using wfv_wf).
  assert (Hjn : (j < n)%nat) by (rewrite <- (l_k n _ (lens_kchk gb n s (proj1 A))); eapply nth_error_lt; eauto).
  assert (Hdj : nth_error ds j = Some (Fin d)).
  { destruct (nth_error ds j) as [y|] eqn:Ey; [|apply nth_error_None in Ey; lia].
    pose proof (bcast1_entry n dt ds j y Hd Hb Ey) as Q. destruct dt; cbn [entry1] in *; congruence. }
  destruct (V j _ _ _ Hj Hm Hdj) as [g [g' Hv]]. unfold back1, ma1 in Hv. rewrite Ht, row5_fin in Hv.
  replace (s0 (fin6 k)) with (Fin (s0 k)) in Hv by now destruct k.
  destruct (adv_real s (s5 k) (s0 k) m mu d Ha Hmu Em) as [y [Ey [Hy [Ay _]]]]. rewrite Ey in Hv.
  exists (okep s'), y. split; [apply Rd|].
  split; [rewrite Eke, (set_row_nth 5 _ _ _ _ _ Hj Hv); f_equal; apply set5_fin|].
  rewrite Ay. split; [apply Rmod_2pi|]. split; [apply Rmod_2pi|]. intros I. now apply Rmod_id.
Qed.
(** Open orbits: whenever M + n dt leaves [0, 2 pi) the hyperbolic orbit ends at a wrong mean anomaly,
    even for dt = 0. *)
Theorem C57_hyperbolic_refuted : forall gb gb' n dt (s s' : orb) ks j (k : six R) m mu d,
  aligned n s -> wfv dt -> otype s = AMean -> propagate gb dt s = (s', Ok tt) ->
  snd (get_kepler gb s) = Ok ks -> nth_error ks j = Some (fin6 k) -> nth_error (om s) j = Some (Fin m) ->
  entry1 dt j (Fin d) -> 0 < mu -> mu_real s m mu -> 0 < s0 k -> 1 < s1 k ->
  ~ in_circle (ang (odeg s) (s5 k) + rate mu (s0 k) * d) ->
  exists ks' x, snd (get_kepler gb' s') = Ok ks' /\ nth_error ks' j = Some (fin6 (with_nu k x))
  /\ ang (odeg s) x <> ang (odeg s) (s5 k) + rate mu (s0 k) * d.
Proof.
  intros gb gb' n dt s s' ks j k m mu d A Hd Ht E Ek Hj Hm Hdt Hmu Em Ha _ Hn.
  destruct (C57_mean_partial gb gb' n dt s s' ks j k m mu d A Hd Ht E Ek Hj Hm Hdt Hmu Em Ha) as [ks' [x [R1 [R2 [R3 _]]]]].
  exists ks', x. split; [auto|]. split; [auto|]. intros X. now rewrite X in R3.
Qed.
(** Parabolas (a is the periapsis distance q): the rate used is sqrt(mu/q^3), Barker's equation needs
    sqrt(mu/(2 q^3)); every non-zero interval is propagated wrongly, also when nothing is wrapped. *)
Theorem C57_parabolic_refuted : forall gb gb' n dt (s s' : orb) ks j (k : six R) m mu d,
  aligned n s -> wfv dt -> otype s = AMean -> propagate gb dt s = (s', Ok tt) ->
  snd (get_kepler gb s) = Ok ks -> nth_error ks j = Some (fin6 k) -> nth_error (om s) j = Some (Fin m) ->
  entry1 dt j (Fin d) -> 0 < mu -> mu_real s m mu -> 0 < s0 k -> s1 k = 1 ->
  d <> 0 -> in_circle (ang (odeg s) (s5 k) + rate mu (s0 k) * d) ->
  exists ks' x, snd (get_kepler gb' s') = Ok ks' /\ nth_error ks' j = Some (fin6 (with_nu k x))
  /\ ang (odeg s) x <> ang (odeg s) (s5 k) + sqrt (mu / (2 * (s0 k * s0 k * s0 k))) * d.
Proof.
  intros gb gb' n dt s s' ks j k m mu d A Hd Ht E Ek Hj Hm Hdt Hmu Em Ha _ Hn Hi.
  destruct (C57_mean_partial gb gb' n dt s s' ks j k m mu d A Hd Ht E Ek Hj Hm Hdt Hmu Em Ha) as [ks' [x [R1 [R2 [_ [_ R3]]]]]].
  exists ks', x. split; [auto|]. split; [auto|]. rewrite (R3 Hi). intros X.
  assert (Y : rate mu (s0 k) * d = sqrt (mu / (2 * (s0 k * s0 k * s0 k))) * d) by lra.
  apply Rmult_eq_reg_r in Y; [|auto]. unfold rate in Y.
  assert (H3 : 0 < s0 k * s0 k * s0 k) by (repeat apply Rmult_lt_0_compat; lra).
  apply sqrt_inj in Y; try (apply Rlt_le, Rdiv_lt_0_compat; lra).
  assert (Z : mu / (s0 k * s0 k * s0 k) = 0).
  { replace (mu / (2 * (s0 k * s0 k * s0 k))) with (mu / (s0 k * s0 k * s0 k) / 2) in Y by (field; lra). lra. }
  assert (0 < mu / (s0 k * s0 k * s0 k)) by (apply Rdiv_lt_0_compat; lra). lra.
Qed.
(** a = 1, e = 2, M = -1 and dt = 0: the orbit moves; a = 1, e = 1, M = 1, dt = 1 *)
Example C57_example : forall gb, exists s s' t t',
  set_kepler gb (kvec (mk6 1 2 1 0 0 (-1))) (with_type AMean (s_new true false)) = (s, Ok tt)
  /\ propagate gb (Sc (Fin 0)) s = (s', Ok tt)
  /\ set_kepler gb (kvec (mk6 1 1 1 0 0 1)) (with_type AMean (s_new true false)) = (t, Ok tt)
  /\ propagate gb (Sc (Fin 1)) t = (t', Ok tt)
  /\ snd (get_kepler gb s) = Ok [fin6 (mk6 1 2 1 0 0 (-1))]
  /\ ~ in_circle (ang (odeg s) (-1) + rate 1 1 * 0) /\ in_circle (ang (odeg t) 1 + rate 1 1 * 1)
  /\ exists k' x, snd (get_kepler gb s') = Ok k' /\ nth_error k' 0 = Some (fin6 (mk6 1 2 1 0 0 x)) /\ x <> -1.
Proof.
  intros gb. pose proof PI_RGT_0 as Hp.
  destruct (propagate_ready gb AMean true (mk6 1 2 1 0 0 (-1))) as [s [E [A [Ht [Hg [Ho [Hm [Hm0 [Hk Hd]]]]]]]]].
  destruct (propagate_ready gb AMean true (mk6 1 1 1 0 0 1)) as [t [E2 [A2 [Ht2 [Hg2 [_ [_ [_ [_ Hd2]]]]]]]]].
  destruct (Hd 0) as [s' E']. destruct (Hd2 1) as [t' E2']. exists s, s', t, t'.
  assert (R1 : rate 1 1 = 1) by (unfold rate; replace (1 / (1 * 1 * 1)) with 1 by field; apply sqrt_1).
  assert (N : ~ in_circle (ang (odeg s) (-1) + rate 1 1 * 0)) by (rewrite Hg, R1; unfold in_circle, ang; lra).
  split; [auto|]. split; [auto|]. split; [auto|]. split; [auto|]. split; [auto|]. split; [auto|].
  split.
  { rewrite Hg2, R1. unfold in_circle, ang. pose proof PI2_3_2. pose proof PI2_1. lra. }
  destruct (C57_hyperbolic_refuted gb gb 1 (Sc (Fin 0)) s s' _ 0 (mk6 1 2 1 0 0 (-1)) 0 1 0 A I Ht E' Hk eq_refl Hm0 eq_refl)
    as [k' [x [Q1 [Q2 Q3]]]]; auto; try (cbn; lra).
  exists k', x. split; [auto|]. split; [exact Q2|]. intros ->. apply Q3. cbn [s0 s5]. rewrite R1. lra.
Qed.
