(** * C49: a copy of a lazily updated object can return other elements than the original *)
From Coq Require Import String Reals Lra List Bool Arith Lia ZArith QArith.
From Verif Require Import NP KeplerModel ConvModel UnitModel OrbitModel Lists ConvCols ArraySpec
  NPReal RealBase Spec AnomReal KepReal PropsKep PropsAnomaly PropsAnomalyR PropsSolver PropsCart
  OrbitLists OrbitBase OrbitOps OrbitSetters OrbitGet OrbitSpec PropsOrbitWidth PropsOrbitDirect PropsOrbitLazy
  PropsOrbitWrite OrbitReal PropsOrbitType PropsOrbitUpdate PropsOrbitItem.
Import ListNotations.
Local Open Scope R_scope.

(** [Orbit(auto_update=True, direct_update=False)], [orb.kepler = ktp 0], [orb.cartesian = x]: reading
    [cartesian] on a copy returns the state of the abandoned Kepler elements, whatever [x] is *)
Theorem C49_lazy_refuted : forall gb (x : six R), exists sa sb sc,
  init gb (Fin 1) (cfgr true false) no_kws = Ok (s_new true false)
  /\ set_kepler gb (kvec (ktp 0)) (s_new true false) = (sa, Ok tt)
  /\ set_cartesian gb (kvec x) sa = (sb, Ok tt) /\ copy sb = Ok sc
  /\ snd (get_cartesian gb sb) = Ok [fin6 x] /\ snd (get_cartesian gb sc) = Ok [fin6 (peri_state 1 (ktp 0))].
Proof.
  intros gb x.
  pose (sa := aft_kep gb (with_kep (fun _ => [fin6 (ktp 0)]) (s_new true false))).
  pose (sb := aft_cart gb (with_cart (fun _ => [fin6 x]) sa)).
  assert (Hb : lens 1 sb) by now constructor.
  destruct (C49_copy 1 sb Hb) as [sc [Ec [S [Em [Eca Ek]]]]].
  destruct (C49_stored 1 IAll sb sc Hb Ec) as [_ [_ [_ [_ [q [[Hc _] [Hq [Fc Fk]]]]]]]].
  assert (q = 1%nat) as ->.
  { destruct Hc as [Q _ _ _ _ _ _]. rewrite Em in Q. exact (eq_sym Q). }
  exists sa, sb, sc. split; [reflexivity|]. split; [reflexivity|]. split; [reflexivity|]. split; [exact Ec|]. split.
  - rewrite (get_cartesian_eq gb 1) by auto. cbn [snd].
    assert (Q : ocart (cchk gb sb) = ocart sb).
    { apply (cchk_keeps gb 1); auto. intros _ j k Hk. left.
      destruct j as [|[|]]; [reflexivity|discriminate Hk|discriminate Hk]. }
    rewrite Q. reflexivity.
  - rewrite (get_cartesian_eq gb 1) by auto. cbn [snd]. f_equal.
    destruct (cchk_spec gb 1 sc Hc) as [_ [K1 [_ [_ [_ [_ [_ K]]]]]]].
    destruct (col_ex 1 sc 0 Hc ltac:(lia)) as [c [k [m [cb [kb C]]]]].
    destruct (K _ _ _ _ _ _ C) as [c' [k' [cb' [kb' [C' [_ R]]]]]].
    assert (k = fin6 (ktp 0)) by (destruct C as [_ Q _ _ _]; rewrite Ek in Q; cbn [nth_error okep sb sa aft_cart aft_kep with_kep with_cart with_cf with_kf odirect s_new] in Q; congruence).
    assert (m = Fin 0) by (destruct C as [_ _ Q _ _]; rewrite Em in Q; cbn [nth_error om sb sa aft_cart aft_kep with_kep with_cart with_cf with_kf odirect s_new] in Q; rewrite lit_0 in Q; congruence).
    assert (cb = false) by (destruct C as [_ _ _ Q _]; rewrite Fc in Q; cbn in Q; congruence). subst k m cb.
    apply settings_eq in S. destruct S as [S1 [S2 [S3 [S4 [_ [_ [S7 [S8 _]]]]]]]].
    assert (Lz : lazy sc = true) by (unfold lazy; rewrite S3, S4; reflexivity).
    assert (Ty : typed sc = false) by (unfold typed; rewrite S8; reflexivity).
    destruct R as [[[Q|Q] _]|[_ [_ [_ R]]]]; [rewrite Lz in Q; discriminate|rewrite fin6_nan in Q; discriminate|].
    destruct R as [_ Rc]; [rewrite Ty, andb_false_r; reflexivity|].
    apply (Cc_real sc (ktp 0) 0 1 c') with (nu := 0) in Rc; cbn [ktp s0 s1]; try lra.
    + rewrite S7 in Rc. destruct K1 as [_ Lc _ _ _ _ _]. pose proof (col_c _ _ _ _ _ _ _ C') as Q.
      destruct (ocart (cchk gb sc)) as [|y [|]]; try discriminate. cbn in Q. injection Q as ->. rewrite Rc. reflexivity.
    + unfold mu_real. rewrite S1, S2. cbn. num. f_equal. lra.
    + rewrite S8. discriminate.
    + rewrite S8, S7. apply cong_refl.
Qed.
