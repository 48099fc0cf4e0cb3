(** * C44: writing an anomaly of another type than the stored one *)
From Coq Require Import Reals Lra String List Bool Arith Lia ZArith QArith.
From Verif Require Import NP KeplerModel ConvModel UnitModel OrbitModel Lists ConvCols ArraySpec
  NPReal RealBase Spec AnomReal KepReal PropsKep CartInv PropsAnomaly PropsAnomalyR PropsSolver PropsScalar PropsDegrees PropsCart
  OrbitLists OrbitBase OrbitOps OrbitSetters OrbitGet OrbitSpec PropsOrbitWidth PropsOrbitDirect PropsOrbitLazy
  PropsOrbitWrite OrbitReal PropsOrbitType PropsOrbitProp PropsOrbitPropR.
Import ListNotations.
Local Open Scope nat_scope.

Section Generic.
Context {F : Type} `{NP F}.
Notation orb := (OrbitModel.orb F).

(** what is stored for an assigned anomaly [x] of type [w] *)
Definition put1 (w : anomaly) (s : orb) (g : F * F) (x e : F) : F :=
  match w, otype s with
  | ATrue, ATrue | AEcc, AEcc | AMean, AMean => x
  | AEcc, ATrue => e2t1 (fst g) (odeg s) x e
  | AEcc, AMean => e2m1 (fst g) (odeg s) x e
  | ATrue, AEcc => t2e1 (fst g) (odeg s) x e
  | ATrue, AMean => t2m1 g (odeg s) x e
  | AMean, ATrue => m2t1 (fst g) (oopts s) (odeg s) x e
  | AMean, AEcc => m2e1 (oopts s) (odeg s) x e
  end.
(** a number, or an array of one entry per orbit, is the same as the array of the values per orbit *)
Lemma arg_bcast n deg (v : arg F) (e : list F) : wfv v -> c_order v -> length e = n ->
  (exists er, broadcast (in_rad deg v) (fresh [n] e) = Raise er)
  \/ exists dx, length dx = n
     /\ broadcast (in_rad deg v) (fresh [n] e) = broadcast (in_rad deg (fresh [n] dx)) (fresh [n] e)
     /\ forall j x, j < n -> entry1 v j x -> nth_error dx j = Some x.
Proof.
  intros W C L.
  assert (G : forall x, in_rad deg v = Sc (inr deg x) -> (forall j y, j < n -> entry1 v j y -> y = x) ->
    exists dx, length dx = n
     /\ broadcast (in_rad deg v) (fresh [n] e) = broadcast (in_rad deg (fresh [n] dx)) (fresh [n] e)
     /\ forall j x, j < n -> entry1 v j x -> nth_error dx j = Some x).
  { intros x E V. exists (repeat x n). split; [apply repeat_length|]. split.
    - rewrite E, in_rad_fresh, fresh_bcast. unfold broadcast, fresh.
      assert (R : map (fun _ => inr deg x) e = map (inr deg) (repeat x n)).
      { rewrite <- L. clear. induction e; cbn; [auto|]. now f_equal. }
      rewrite R, !map_length, repeat_length, L. reflexivity.
    - intros j y Hj Hy. rewrite (V j y Hj Hy). now apply nth_error_repeat. }
  destruct v as [x|s m d].
  - right. apply (G x).
    + unfold in_rad, inr. now destruct deg.
    + intros j y _ Hy. exact Hy.
  - cbn in W, C. destruct W as [W1 W2].
    assert (A : (exists x, s = [] /\ d = [x] /\ deg = true) \/ in_rad deg (Arr s m d) = Arr s m (map (inr deg) d)).
    { unfold in_rad, inr. destruct deg; [|right; now rewrite map_id].
      destruct s as [|a [|b s]]; [|right; cbn [amap]; now rewrite C|right; reflexivity]. destruct d as [|x [|y d]]; [discriminate| |discriminate].
      left. now exists x. }
    destruct A as [[x [-> [-> ->]]]|A].
    + right. apply (G x); [reflexivity|]. intros j y _ Hy. cbn in Hy. congruence.
    + rewrite A.
      destruct (shape_eqb s [n]) eqn:Es; [|left; exists TypeError; unfold fresh; cbn [broadcast]; now rewrite Es].
      apply shape_eqb_eq in Es. subst s. cbn [size fold_right] in W1. rewrite Nat.mul_1_r in W1.
      right. exists d. split; [auto|]. split.
      * rewrite in_rad_fresh. unfold fresh. rewrite C, map_length. reflexivity.
      * intros j x Hj Hx. unfold entry1 in Hx. destruct (Nat.eqb_spec (length d) 1) as [E1|]; [|auto].
        replace j with 0 by lia. exact Hx.
Qed.
Lemma anom_arg_spec gb n w v (s : orb) r : lens n s -> wfv v -> c_order v -> anom_arg gb w s v = Ok r -> w <> otype s ->
  exists vs, r = fresh [n] vs /\ length vs = n
  /\ forall j k x, nth_error (okep (kchk gb s)) j = Some k -> entry1 v j x ->
       exists g, nth_error vs j = Some (put1 w s g x (s1 k)).
Proof.
  intros Hs W C E Hw. pose proof (lens_kchk gb n s Hs) as Hk.
  set (e := map (row_get 1) (okep (kchk gb s))).
  assert (Le : length e = n) by (unfold e; rewrite map_length; apply (l_k n _ Hk)).
  assert (Ee : forall j k, nth_error (okep (kchk gb s)) j = Some k -> nth_error e j = Some (s1 k) /\ j < n).
  { intros j k Hj. split; [unfold e; now rewrite nth_error_map, Hj|]. rewrite <- (l_k n _ Hk). eapply nth_error_lt; eauto. }
  unfold anom_arg in E. fold e in E. rewrite Le in E. unfold put1.
  destruct (arg_bcast n (odeg s) v e W C Le) as [[er X]|[dx [Lx [X V]]]].
  { exfalso. destruct w, (otype s); try congruence;
      unfold true_to_eccentric, eccentric_to_true, eccentric_to_mean, true_to_mean, mean_to_true, mean_to_eccentric, true_to_eccentric in E;
      cbn [in_rad] in E; rewrite X in E; discriminate. }
  assert (Y : anom_arg gb w s v = anom_arg gb w s (fresh [n] dx)).
  { unfold anom_arg. fold e. rewrite Le. destruct w, (otype s); try congruence;
      unfold true_to_eccentric, eccentric_to_true, eccentric_to_mean, true_to_mean, mean_to_true, mean_to_eccentric, true_to_eccentric;
      cbn [in_rad]; rewrite X; try reflexivity; rewrite in_rad_fresh, fresh_bcast; reflexivity. }
  assert (E' : anom_arg gb w s (fresh [n] dx) = Ok r) by (rewrite <- Y; unfold anom_arg; fold e; now rewrite Le).
  clear E Y. unfold anom_arg in E'. fold e in E'. rewrite Le in E'.
  destruct w, (otype s); try congruence.
  - rewrite t2e_arr in E' by auto. injection E' as <-. eexists. split; [reflexivity|]. split; [rewrite imap2_length; lia|].
    intros j k x Hk' Hx. destruct (Ee j k Hk') as [Hj Hn]. exists (gb 27 j, gb 27 j).
    rewrite imap2_nth, (V j x Hn Hx), Hj. reflexivity.
  - rewrite t2m_arr in E' by auto. injection E' as <-. eexists. split; [reflexivity|]. split; [rewrite imap2_length; lia|].
    intros j k x Hk' Hx. destruct (Ee j k Hk') as [Hj Hn]. exists (gb 27 j, gb 28 j).
    rewrite imap2_nth, (V j x Hn Hx), Hj. reflexivity.
  - rewrite e2t_arr in E' by auto. injection E' as <-. eexists. split; [reflexivity|]. split; [rewrite imap2_length; lia|].
    intros j k x Hk' Hx. destruct (Ee j k Hk') as [Hj Hn]. exists (gb 27 j, gb 27 j).
    rewrite imap2_nth, (V j x Hn Hx), Hj. reflexivity.
  - rewrite e2m_arr in E' by auto. injection E' as <-. eexists. split; [reflexivity|]. split; [rewrite imap2_length; lia|].
    intros j k x Hk' Hx. destruct (Ee j k Hk') as [Hj Hn]. exists (gb 27 j, gb 27 j).
    rewrite imap2_nth, (V j x Hn Hx), Hj. reflexivity.
  - rewrite m2t_arr in E' by auto. injection E' as <-. eexists. split; [reflexivity|]. split; [rewrite imap2_length; lia|].
    intros j k x Hk' Hx. destruct (Ee j k Hk') as [Hj Hn]. exists (gb 27 j, gb 27 j).
    rewrite imap2_nth, (V j x Hn Hx), Hj. reflexivity.
  - rewrite m2e_arr in E' by auto. injection E' as <-. eexists. split; [reflexivity|]. split; [rewrite map2_length; lia|].
    intros j k x Hk' Hx. destruct (Ee j k Hk') as [Hj Hn]. exists (gb 27 j, gb 27 j).
    rewrite nth_error_map2, (V j x Hn Hx), Hj. reflexivity.
Qed.
Lemma set_other_spec gb n w v (s s' : orb) : aligned n s -> wfv v -> c_order v -> w <> otype s ->
  set_of gb w v s = (s', Ok tt) ->
  exists vs, aligned n s' /\ settings s' = settings s /\ length vs = n /\ okep s' = set_row 5 (okep (kchk gb s)) vs
  /\ (forall j k x, nth_error (okep (kchk gb s)) j = Some k -> entry1 v j x ->
       exists g, nth_error vs j = Some (put1 w s g x (s1 k)))
  /\ forall gb', okep (kchk gb' s') = okep s'.
Proof.
  intros A W C Hw E. pose proof A as [Hs HE]. rewrite (set_of_eq gb n) in E by auto.
  destruct (okro s) eqn:Ho; [discriminate|].
  destruct (anom_arg gb w s v) as [r|] eqn:Er; [|discriminate].
  destruct (anom_arg_spec gb n w v s r Hs W C Er Hw) as [vs [-> [Lv V]]].
  rewrite bcast1_fresh in E by auto. 
  assert (Bs : base gb w s = kchk gb s).
  { unfold base. destruct w, (otype s); try reflexivity; congruence. }
  rewrite Bs in E. pose proof (aligned_kchk gb n s A) as Ak. pose proof Ak as [Hk _].
  pose proof (kchk_settings gb n s Hs) as Sk.
  set (sb := with_kep (fun c => set_row 5 c vs) (kchk gb s)) in *.
  assert (Ab : aligned n sb) by (apply aligned_with_kep; auto; rewrite set_row_length, (l_k n _ Hk); lia).
  assert (Ac : aligned n (aft_keprow gb sb)) by now apply aligned_aft_keprow.
  set (sc := aft_keprow gb sb) in *. set (sd := aft_keprow gb sc) in *.
  assert (Ad : aligned n sd) by now apply aligned_aft_keprow.
  assert (s' = sd) as -> by congruence. clear E.
  assert (Sb : settings sb = settings s) by exact Sk.
  assert (Sc : settings sc = settings s) by (transitivity (settings sb); [now apply (aft_keprow_settings gb n); destruct Ab|auto]).
  assert (Sd : settings sd = settings s) by (transitivity (settings sc); [now apply (aft_keprow_settings gb n); destruct Ac|auto]).
  assert (Kc : okep sc = okep sb) by (apply (aft_keprow_okep gb n), Ab).
  assert (Kd : okep sd = okep sb) by (rewrite <- Kc; apply (aft_keprow_okep gb n), Ac).
  exists vs. split; [auto|]. split; [auto|]. split; [auto|]. split; [exact Kd|]. split; [exact V|].
  intros gb'. apply (kchk_keeps gb' n); [apply Ad|]. intros Hz j c Hc.
  assert (Hz' : lazy s = true) by (apply lazy_mode_iff in Hz; now rewrite <- (settings_lazy s sd)).
  assert (D : odirect s = false) by (apply lazy_mode_direct; now apply lazy_mode_iff).
  assert (Db : odirect sb = false) by (rewrite <- D; now apply settings_direct).
  assert (Dc : odirect sc = false) by (rewrite <- D; now apply settings_direct).
  assert (Ecd : ocart sd = ocart (kchk gb s) /\ okf sd = okf (kchk gb s)).
  { unfold sd, sc, aft_keprow at 1 3. fold sc. rewrite Dc. unfold sc, aft_keprow. rewrite Db. split; reflexivity. }
  destruct Ecd as [Ecd Efd]. rewrite Ecd in Hc. rewrite has_nan_iff.
  destruct (nth_error (okf sd) j) as [b|] eqn:Eb.
  - rewrite Efd in Eb. pose proof (kchk_flags gb n s Hs Hz' j c b Hc Eb) as Q. destruct b; auto.
  - exfalso. apply nth_error_None in Eb. apply nth_error_lt in Hc. rewrite (l_kf n _ (proj1 Ad)) in Eb.
    rewrite (l_c n _ Hk) in Hc. lia.
Qed.
End Generic.

Local Open Scope R_scope.
(** Assigning an anomaly of a type the object does not store, any update mode, any number of elliptic
    orbits, degrees or radians: orbit [j] keeps its other five elements and reads back
    - the assigned angle reduced to one turn, when no mean anomaly is involved,
    - a mean anomaly within the tolerance of the assigned one (up to whole turns), when the solver stops,
    - when the object stores the mean anomaly, an angle whose eccentric anomaly is within tol/(1-e) of
      the assigned one, again when the solver stops. *)
Theorem C44_anomaly_other_partial : forall gb gb' n w v (s s' : orb) ks j (k : six R) x tl,
  aligned n s -> wfv v -> c_order v -> w <> otype s -> set_of gb w v s = (s', Ok tt) ->
  snd (get_kepler gb s) = Ok ks -> nth_error ks j = Some (fin6 k) -> 0 <= s1 k < 1 -> entry1 v j (Fin x) ->
  opts_ok (oopts s) tl ->
  exists ks' vs z y, snd (get_kepler gb' s') = Ok ks' /\ nth_error ks' j = Some (fin6 (with_nu k z))
  /\ snd (get_of gb' w s') = Ok vs /\ nth_error vs j = Some (Fin y)
  /\ (w <> AMean -> otype s <> AMean -> in_circle (ang (odeg s) y) /\ cong2pi (ang (odeg s) y) (ang (odeg s) x))
  /\ (w = AMean -> solved (oopts s) (ang (odeg s) x) (s1 k) ->
      exists M, cong2pi (ang (odeg s) y) M /\ Rabs (M - ang (odeg s) x) < tl)
  /\ (otype s = AMean -> forall E, (w = AEcc -> E = ang (odeg s) x) ->
      (w = ATrue -> in_circle E /\ anomalies_ell (s1 k) (ang (odeg s) x) E) ->
      solved (oopts s) (E - s1 k * sin E) (s1 k) ->
      exists E', Rabs (E' - s1 k * sin E' - (E - s1 k * sin E)) < tl /\ (1 - s1 k) * Rabs (E' - E) < tl
      /\ (w = AEcc -> ang (odeg s) y = E')
      /\ (w = ATrue -> in_circle (ang (odeg s) y) /\ anomalies_ell (s1 k) (ang (odeg s) y) E')).
Proof.
  intros gb gb' n w v s s' ks j k x tl A W C Hw E Ek Hj He Hx Ho.
  destruct (set_other_spec gb n w v s s' A W C Hw E) as [vs [A' [Es [Lv [Ke [V Kp]]]]]].
  rewrite (get_kepler_eq gb n) in Ek by apply A. cbn [snd] in Ek. injection Ek as Ek. rewrite <- Ek in Hj.
  destruct (V j _ _ Hj Hx) as [g Hv]. rewrite row1_fin in Hv.
  destruct (get_of_spec gb' n w s' A') as [s2 [us [E2 [_ [_ [Lu U]]]]]].
  rewrite Kp, Ke in U. rewrite (get_kepler_eq gb' n) by apply A'. cbn [snd]. rewrite Kp, Ke, E2.
  set (d := odeg s) in *. set (e := s1 k) in *.
  assert (Hz : exists z, put1 w s g (Fin x) (Fin e) = Fin z).
  { unfold put1. fold d. destruct w, (otype s); try congruence.
    - destruct (t2e1_ell (fst g) d x e He) as [z [-> _]]. eauto.
    - destruct (t2m1_ell g d x e He) as [z [-> _]]. eauto.
    - destruct (e2t1_ell (fst g) d x e He) as [z [-> _]]. eauto.
    - rewrite e2m1_ell by lra. eauto.
    - destruct (m2t1_ell (fst g) (oopts s) tl d x e He Ho) as [z [z' [-> _]]]. eauto.
    - destruct (m2e1_ell (oopts s) tl d x e He Ho) as [z [-> _]]. eauto. }
  destruct Hz as [z Hz]. rewrite Hz in Hv. 
  pose proof (set_row_nth 5 _ _ _ _ _ Hj Hv) as Hr. rewrite set5_fin in Hr.
  destruct (U j _ Hr) as [g' Hu].
  assert (Hs' : anom1 w s' g' (fin6 (with_nu k z)) = anom1 w s g' (fin6 (with_nu k z))) by now apply anom1_settings.
  rewrite Hs' in Hu. exists (set_row 5 (okep (kchk gb s)) vs), us, z.
  assert (Q : exists y, anom1 w s g' (fin6 (with_nu k z)) = Fin y
    /\ (w <> AMean -> otype s <> AMean -> in_circle (ang d y) /\ cong2pi (ang d y) (ang d x))
    /\ (w = AMean -> solved (oopts s) (ang d x) e -> exists M, cong2pi (ang d y) M /\ Rabs (M - ang d x) < tl)
    /\ (otype s = AMean -> forall E, (w = AEcc -> E = ang d x) ->
      (w = ATrue -> in_circle E /\ anomalies_ell e (ang d x) E) ->
      solved (oopts s) (E - e * sin E) e ->
      exists E', Rabs (E' - e * sin E' - (E - e * sin E)) < tl /\ (1 - e) * Rabs (E' - E) < tl
      /\ (w = AEcc -> ang d y = E')
      /\ (w = ATrue -> in_circle (ang d y) /\ anomalies_ell e (ang d y) E'))).
  { clear - He Ho Hz Hw. 
    assert (Lip : forall E E', Rabs (E' - e * sin E' - (E - e * sin E)) < tl -> (1 - e) * Rabs (E' - E) < tl).
    { intros E E' L. pose proof (kepler_lip e E' E He) as Q. unfold kepler_M in Q. destruct (Rlt_dec e 1); [|lra]. lra. }
    unfold anom1, nu1, ec1, ma1. rewrite row5_fin, row1_fin.
    change (s1 (with_nu k z)) with e. change (s5 (with_nu k z)) with z. unfold put1 in Hz. fold d in Hz. fold d.
    destruct w, (otype s) eqn:Et; try congruence.
    - (* true into eccentric *)
      destruct (t2e1_ell (fst g) d x e He) as [z' [Ez [_ B]]]. assert (z' = z) by congruence. subst z'.
      destruct (e2t1_ell (fst g') d z e He) as [y [-> [I1 B']]]. exists y. split; [auto|].
      split; [|split; discriminate]. intros _ _. split; [exact I1|]. exact (ell_cong_l e _ _ _ B' B).
    - (* true into mean *)
      destruct (t2m1_ell g d x e He) as [E0 [Ez [I0 B]]].
      assert (z = unang d (E0 - e * sin E0)) by congruence. subst z.
      destruct (m2t1_ell (fst g') (oopts s) tl d (unang d (E0 - e * sin E0)) e He Ho) as [y [E' [-> [I1 [B' S]]]]].
      exists y. split; [auto|]. split; [congruence|]. split; [discriminate|]. intros _ E _ HE So.
      destruct (HE eq_refl) as [IE BE].
      assert (E = E0) as ->.
      { apply circle_eq; auto. exact (ell_cong_r e He _ _ _ BE B). }
      rewrite ang_unang in S. specialize (S So). exists E'. split; [auto|]. split; [auto|].
      split; [discriminate|]. auto.
    - (* eccentric into true *)
      destruct (e2t1_ell (fst g) d x e He) as [z' [Ez [_ B]]]. assert (z' = z) by congruence. subst z'.
      destruct (t2e1_ell (fst g') d z e He) as [y [-> [I1 B']]]. exists y. split; [auto|].
      split; [|split; discriminate]. intros _ _. split; [exact I1|]. exact (ell_cong_r e He _ _ _ B' B).
    - (* eccentric into mean *)
      rewrite e2m1_ell in Hz by lra. assert (z = unang d (ang d x - e * sin (ang d x))) by congruence. subst z.
      destruct (m2e1_ell (oopts s) tl d (unang d (ang d x - e * sin (ang d x))) e He Ho) as [y [-> S]].
      exists y. split; [auto|]. split; [congruence|]. split; [discriminate|]. intros _ E HE _ So.
      rewrite (HE eq_refl) in *. rewrite ang_unang in S. specialize (S So). exists (ang d y).
      split; [auto|]. split; [auto|]. split; [auto|]. discriminate.
    - (* mean into true *)
      destruct (m2t1_ell (fst g) (oopts s) tl d x e He Ho) as [z' [E0 [Ez [_ [B S]]]]].
      assert (z' = z) by congruence. subst z'.
      destruct (t2m1_ell g' d z e He) as [E1 [-> [I1 B1]]]. eexists. split; [reflexivity|]. rewrite ang_unang.
      split; [congruence|]. split; [|discriminate]. intros _ So. exists (E0 - e * sin E0). split; [|auto].
      apply kepler_shift. exact (ell_cong_r e He _ _ _ B1 B).
    - (* mean into eccentric *)
      destruct (m2e1_ell (oopts s) tl d x e He Ho) as [z' [Ez S]]. assert (z' = z) by congruence. subst z'.
      rewrite e2m1_ell by lra. eexists. split; [reflexivity|]. rewrite ang_unang.
      split; [congruence|]. split; [|discriminate]. intros _ So. eexists. split; [apply cong_refl|auto]. }
  destruct Q as [y [Ey Q]]. rewrite Ey in Hu. exists y. split; [auto|]. split; [auto|]. split; [auto|]. split; [auto|]. exact Q.
Qed.

(** The memory order matters: a reversed view is walked backwards by mean_to_eccentric, so two circular
    orbits of an object of type eccentric get each other's mean anomaly.  [m1; m0] is the buffer,
    (m0, m1) the array that is assigned and (m1, m0) what is read. *)
Theorem C44_anomaly_order_refuted : forall gb gb' (s : orb) (k0 k1 : six R) m0 m1 tl,
  aligned 2 s -> otype s = AEcc -> okro s = false -> odeg s = false -> opts_ok (oopts s) tl ->
  snd (get_kepler gb s) = Ok [fin6 k0; fin6 k1] -> s1 k0 = 0 -> s1 k1 = 0 ->
  exists s', set_mean_anomaly gb (Arr [2%nat] [1%nat; 0%nat] [Fin m0; Fin m1]) s = (s', Ok tt)
  /\ snd (get_mean_anomaly gb' s') = Ok [Fin m1; Fin m0].
Proof.
  intros gb gb' s k0 k1 m0 m1 tl A Et Hro Hd Ho Ek H0 H1. pose proof A as [Hs HE].
  rewrite (get_kepler_eq gb 2) in Ek by auto. cbn [snd] in Ek. injection Ek as Ek.
  set (v := Arr [2%nat] [1%nat; 0%nat] [Fin m0; Fin m1]).
  assert (X : anom_arg gb AMean s v = Ok (fresh [2%nat] [Fin m1; Fin m0])).
  { unfold anom_arg. rewrite Et, Ek, Hd. cbn [map row_get length]. rewrite !row1_fin, H0, H1.
    unfold mean_to_eccentric, v, fresh. cbn [in_rad broadcast shape_eqb Nat.eqb andb rbind length out_deg seq nditer map nth map2].
    destruct Ho as [Ht [Hp _]]. now rewrite !(m2e_el_zero (oopts s) tl). }
  assert (Y : anom_arg gb AMean s v = anom_arg gb AMean s (fresh [2%nat] [Fin m1; Fin m0])).
  { rewrite X. symmetry. unfold anom_arg. rewrite Et, Ek, Hd. cbn [map row_get length]. rewrite !row1_fin, H0, H1.
    unfold mean_to_eccentric, fresh. cbn [in_rad broadcast shape_eqb Nat.eqb andb rbind length out_deg seq nditer map nth map2].
    destruct Ho as [Ht [Hp _]]. now rewrite !(m2e_el_zero (oopts s) tl). }
  assert (Hw : AMean <> otype s) by (rewrite Et; discriminate).
  set (u := fresh [2%nat] [Fin m1; Fin m0]) in *.
  assert (Wu : wfv u) by now apply wfv_fresh1.
  assert (Wv : wfv v) by (split; reflexivity).
  assert (Z : set_of gb AMean v s = set_of gb AMean u s).
  { rewrite !(set_of_eq gb 2) by auto. now rewrite Y. }
  change (set_mean_anomaly gb v s) with (set_of gb AMean v s). rewrite Z.
  assert (S : exists s', set_of gb AMean u s = (s', Ok tt)).
  { rewrite (set_of_eq gb 2), Hro, <- Y, X by auto. unfold u. rewrite bcast1_fresh by auto. eauto. }
  destruct S as [s' S]. exists s'. split; [exact S|].
  destruct (set_other_spec gb 2 AMean u s s' A Wu eq_refl Hw S) as [vs [A' [Es [Lv [Ke [V Kp]]]]]].
  destruct (get_of_spec gb' 2 AMean s' A') as [s2 [us [E2 [_ [_ [Lu U]]]]]].
  cbn [get_of] in E2. rewrite E2. cbn [snd]. rewrite Kp, Ke, Ek in U. rewrite Kp, Ke, Ek in Lu.
  rewrite Ek in V. destruct (V 0%nat _ (Fin m1) eq_refl eq_refl) as [g0 V0].
  destruct (V 1%nat _ (Fin m0) eq_refl eq_refl) as [g1 V1].
  unfold put1 in V0, V1. rewrite Et, Hd in V0, V1. unfold m2e1 in V0, V1. rewrite row1_fin, inr_fin in V0, V1.
  rewrite H0 in V0. rewrite H1 in V1. destruct Ho as [Ht [Hp _]].
  cbn [ang] in V0, V1. rewrite (m2e_el_zero (oopts s) tl), outd_fin in V0, V1 by auto. cbn [unang] in V0, V1.
  assert (vs = [Fin m1; Fin m0]) as ->.
  { destruct vs as [|a [|b [|]]]; try discriminate. cbn in V0, V1. congruence. }
  cbn [set_row map2] in U, Lu. rewrite !set5_fin in U.
  assert (P : forall j k m, s1 k = 0 -> nth_error [fin6 (with_nu k0 m1); fin6 (with_nu k1 m0)] j = Some (fin6 (with_nu k m)) ->
    nth_error us j = Some (Fin m)).
  { intros j k m Hk Hj. destruct (U j _ Hj) as [g Hg]. rewrite Hg. f_equal.
    rewrite (anom1_settings AMean s' s g _ Es). unfold anom1, ma1. rewrite Et, Hd, row5_fin, row1_fin.
    rewrite e2m1_ell by (change (s1 (with_nu k m)) with (s1 k); lra). change (s1 (with_nu k m)) with (s1 k). rewrite Hk.
    change (s5 (with_nu k m)) with m. cbn [ang unang]. f_equal. ring. }
  pose proof (P 0%nat k0 m1 H0 eq_refl) as P0. pose proof (P 1%nat k1 m0 H1 eq_refl) as P1.
  destruct us as [|a [|b [|]]]; try discriminate. cbn in P0, P1. congruence.
Qed.

(** a lazy object of type true with a = 1, e = 1/2: assigning the eccentric anomaly 8 reads back 8 - 2 pi *)
Example C44_other_example : forall gb, exists s s' vs y, set_kepler gb (kvec (ktp PI)) (with_type ATrue (s_new true false)) = (s, Ok tt)
  /\ set_eccentric_anomaly gb (Sc (Fin 8)) s = (s', Ok tt)
  /\ snd (get_of gb AEcc s') = Ok vs /\ nth_error vs 0 = Some (Fin y) /\ y = 8 - 2 * PI.
Proof.
  intros gb. destruct (propagate_ready gb ATrue true (ktp PI)) as [s [E [A [Ht [Hg [Ho [Hm [Hm0 [Hk Hd]]]]]]]]].
  destruct (Hd 0) as [sp Ep]. destruct (propagate_ok gb 1 (Sc (Fin 0)) s sp A I Ep) as [Hro _]. pose proof PI_RGT_0. pose proof PI_4 as P4.
  assert (Hw : AEcc <> otype s) by (rewrite Ht; discriminate).
  assert (S : exists s', set_of gb AEcc (Sc (Fin 8)) s = (s', Ok tt)).
  { rewrite (set_of_eq gb 1), Hro by (try exact I; apply A). unfold anom_arg. rewrite Ht.
    set (e := map _ _). assert (Le : length e = 1%nat) by (unfold e; rewrite map_length; apply (l_k 1 _ (lens_kchk gb 1 s (proj1 A)))).
    rewrite Le. unfold eccentric_to_true. rewrite Hg. cbn [in_rad out_deg]. unfold fresh at 1. cbn [broadcast rbind].
    destruct e as [|e0 [|]]; try discriminate. cbn [map]. unfold fresh, amap.
    rewrite by_masks_imap by reflexivity. cbn [imap2 map bcast1 strip_ones length Nat.eqb]. eauto. }
  destruct S as [s' S]. exists s, s'.
  destruct (C44_anomaly_other_partial gb gb 1 AEcc (Sc (Fin 8)) s s' _ 0 (ktp PI) 8 1e-12 A I I Hw S Hk eq_refl)
    as [ks' [vs [z [y [_ [_ [Ev [Hv [Q _]]]]]]]]]; auto; [cbn; lra|reflexivity|].
  exists vs, y. split; [auto|]. split; [exact S|]. split; [auto|]. split; [auto|].
  rewrite Ht, Hg in Q. cbn [ang] in Q. destruct Q as [Q1 Q2]; try discriminate.
  apply circle_eq; auto.
  - pose proof PI2_1. split; lra.
  - apply (cong_trans _ _ _ Q2). exists 1%Z. ring.
Qed.
(** a new lazy object of type eccentric, [orb.kepler = (1, 0, 0, 0, 0, 0)] for both orbits, then
    [orb.mean_anomaly = np.array([1, 0])[::-1]] *)
Example C44_order_example : forall gb, exists s0' s s',
  init gb (Fin 1) (mkconfig true false (Fin 1) default_options false "eccentric"%string 2 false false) no_kws = Ok s0'
  /\ set_kepler gb (kvec (mk6 1 0 0 0 0 0)) s0' = (s, Ok tt)
  /\ set_mean_anomaly gb (Arr [2%nat] [1%nat; 0%nat] [Fin 0; Fin 1]) s = (s', Ok tt)
  /\ snd (get_mean_anomaly gb s') = Ok [Fin 1; Fin 0].
Proof.
  intros gb.
  pose (sz := mkorb (Fin 1) (Fin 1) true false false false false AEcc default_options
    [lit 0; lit 0] [nan6c; nan6c] [nan6c; nan6c] [nan; nan] (fresh [2%nat] [nan; nan]) [nan; nan] [false; false] [false; false] None : orb).
  pose (k := mk6 1 0 0 0 0 0). pose (s := aft_kep gb (with_kep (fun _ => [fin6 k; fin6 k]) sz)).
  assert (A : aligned 2 s).
  { split; [now constructor|]. exists [nan; nan]. auto. }
  assert (Hk : snd (get_kepler gb s) = Ok [fin6 k; fin6 k]).
  { rewrite (get_kepler_eq gb 2) by apply A. reflexivity. }
  assert (Ho : opts_ok (oopts s) 1e-12).
  { split; [unfold s; cbn; num; f_equal; lra|]. split; [lra|]. exists 5. split; [unfold s; cbn; num; f_equal; lra|lra]. }
  destruct (C44_anomaly_order_refuted gb gb s k k 0 1 1e-12 A eq_refl eq_refl eq_refl Ho Hk eq_refl eq_refl) as [s' [E1 E2]].
  exists sz, s, s'. split; [reflexivity|]. split; [reflexivity|]. auto.
Qed.
