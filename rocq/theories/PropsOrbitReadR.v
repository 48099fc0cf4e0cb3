(** * C71: an orbit that is stale on both sides is changed by reading it *)
From Coq Require Import String Reals Lra List Bool Arith Lia ZArith QArith.
From Verif Require Import NP KeplerModel ConvModel UnitModel OrbitModel Lists ConvCols ArraySpec
  NPReal RealBase Spec AnomReal KepReal PropsKep CartInv PropsAnomaly PropsAnomalyR PropsSolver PropsCart
  OrbitLists OrbitBase OrbitOps OrbitSetters OrbitGet OrbitSpec PropsOrbitWidth PropsOrbitDirect PropsOrbitLazy
  PropsOrbitWrite PropsOrbitLost OrbitReal PropsOrbitType PropsOrbitUpdate PropsOrbitUpdateR.
Import ListNotations.
Local Open Scope R_scope.

(** [Orbit(auto_update=True, direct_update=False)], [orb.kepler = k9], [orb.x = 1]: reading [kepler] gives
    [k9], whose argument of periapsis is 9; reading [cartesian] and then [kepler] again gives another one.
    Exact arithmetic; with rounding all elements change in their last digits. *)
Theorem C71_both_stale_refuted : forall gb gb' gb'', exists sa sb ks' k w,
  init gb (Fin 1) (cfgr true false) no_kws = Ok (s_new true false)
  /\ set_kepler gb (kvec k9) (s_new true false) = (sa, Ok tt) /\ set_cart_row gb 0 (Sc (Fin 1)) sa = (sb, Ok tt)
  /\ snd (get_kepler gb sb) = Ok [fin6 k9] /\ s3 k9 = 9
  /\ snd (get_kepler gb'' (run [(gb, OGetKep); (gb', OGetCart)] sb)) = Ok ks' /\ nth_error ks' 0 = Some k
  /\ s3 k = Fin w /\ w <= 2 * PI < 9.
Proof.
  intros gb gb' gb''.
  pose (sa := aft_kep gb (with_kep (fun _ => [fin6 k9]) (s_new true false))).
  pose (x1 := mk6 (Fin 1) nan nan nan nan nan : six num).
  pose (sb := aft_cartrow gb (with_cart (fun _ => [x1]) sa)).
  assert (Hb : lens 1 sb) by now constructor.
  assert (Kb : kchk gb sb = sb).
  { unfold kchk. rewrite (kep_check_fresh gb 1 sb Hb); [reflexivity|]. intros j c b Hc Hb'. destruct j as [|[|]]; try discriminate Hc.
    injection Hc as <-. assert (N : nan6 x1 = true) by (apply has_nan_iff; right; left; reflexivity). rewrite N. apply orb_true_r. }
  exists sa, sb. cbn [run run_op]. rewrite !fst_void, (get_kepler_eq gb 1) by auto. cbn [fst snd]. rewrite Kb.
  rewrite (get_cartesian_eq gb' 1) by auto. cbn [fst].
  pose proof (lens_cchk gb' 1 sb Hb) as Hc. rewrite (get_kepler_eq gb'' 1) by auto. cbn [snd].
  assert (Mu : mu_real sb 0 1) by (unfold mu_real; cbn; num; f_equal; lra).
  assert (C : col sb 0 x1 (fin6 k9) (Fin 0) false false).
  { constructor; try reflexivity. cbn [om sb sa aft_kep aft_cartrow with_kep with_cart with_cf with_kf odirect s_new]. rewrite lit_0. reflexivity. }
  destruct (cchk_spec gb' 1 sb Hb) as [_ [_ [Es [_ [_ [_ [_ K]]]]]]].
  destruct (K _ _ _ _ _ _ C) as [c' [k' [cb' [kb' [C' [R1 R2]]]]]].
  destruct R1 as [[-> ->]|[_ [Q _]]]; [|discriminate].
  destruct R2 as [[[Q|Q] _]|[_ [_ [-> R]]]]; [discriminate|rewrite fin6_nan in Q; discriminate|].
  destruct R as [_ R]; [reflexivity|].
  apply (Cc_real sb k9 0 1 c') with (nu := 0) in R; try (cbn [k9 s0 s1]; lra); auto; [|discriminate|apply cong_refl].
  change (odeg sb) with false in R.
  assert (R' : c' = fin6 (peri_state 1 k9)) by (rewrite R; reflexivity). clear R. rename R' into R. subst c'.
  pose proof k9_valid as V9.
  destruct (kchk_spec gb'' 1 _ Hc) as [_ [_ [_ [Es2 [_ [_ [_ [_ K2]]]]]]]].
  destruct (K2 _ _ _ _ _ _ C') as [c2 [k2 [cb2 [kb2 [C2 [_ [_ [_ R2]]]]]]]].
  assert (Lz : lazy (cchk gb' sb) = true) by (rewrite (lazy_settings _ sb Es); reflexivity).
  rewrite Lz, fin6_nan in R2. destruct (R2 eq_refl) as [[g Q] _].
  rewrite (kconv_settings _ sb g _ _ Es) in Q. unfold kconv in Q. change (otype sb) with ATrue in Q. change (odeg sb) with false in Q.
  change (mu_of sb (Fin 0)) with (mul (oG sb) (add (oM0 sb) (Fin 0))) in Q. rewrite Mu in Q.
  destruct (C06_elements 1 (peri_state 1 k9) ltac:(lra) (peri_h_nz 1 k9 V9)) as [a [e [i [w [Om [nu [El [_ [_ [_ [Hw _]]]]]]]]]]].
  rewrite (elements_of_fun _ _ _ _ (elements_of_col 1 _) El) in Q.
  exists (okep (kchk gb'' (cchk gb' sb))), k2, w. split; [reflexivity|]. split; [reflexivity|]. split; [reflexivity|].
  split; [reflexivity|]. split; [reflexivity|]. split; [reflexivity|]. split; [apply C2|]. rewrite Q. split; [reflexivity|].
  pose proof PI_4. lra.
Qed.
