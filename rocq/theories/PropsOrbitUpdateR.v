(** * C51, C53 in direct mode, in exact arithmetic *)
From Coq Require Import String Reals Lra List Bool Arith Lia ZArith QArith.
From Verif Require Import NP KeplerModel ConvModel UnitModel OrbitModel Lists ConvCols ArraySpec
  NPReal RealBase Spec AnomReal KepReal PropsKep CartInv PropsAnomaly PropsAnomalyR PropsSolver PropsCart
  OrbitLists OrbitBase OrbitOps OrbitSetters OrbitGet OrbitSpec PropsOrbitWidth PropsOrbitDirect PropsOrbitLazy
  PropsOrbitWrite OrbitReal PropsOrbitType PropsOrbitUpdate.
Import ListNotations.
Local Open Scope R_scope.
Notation orb := (OrbitModel.orb num).

(** Elliptic, neither circular nor planar, angles in [0, 2 pi): orbits outside the selection keep their
    elements in direct mode too (type true, radians) *)
Theorem C53_direct_real_partial gb n idx kw (s : orb) j k x m mu : lens n s -> odirect s = true ->
  otype s = ATrue -> odeg s = false -> valid_index n idx -> (j < n)%nat -> ~ selected n idx j ->
  nth_error (okep s) j = Some (fin6 k) -> nth_error (ocart s) j = Some (fin6 x) -> nth_error (om s) j = Some (Fin m) ->
  mu_real s m mu -> valid_kep mu k -> k_e k < 1 -> eccentric_orbit (k_e k) -> inclined_orbit (k_i k) ->
  in_circle (k_om k) -> in_circle (k_Om k) -> in_circle (k_nu k) -> state_of mu k x ->
  same_values s (fst (update gb idx kw s)) j.
Proof.
  intros Hs D Et Ed V Hj Hn Hk Hc Hm Em Vk He Ee Hi H1 H2 H3 Hx. pose proof Vk as [Q1 [Q2 [Q3 Q4]]].
  assert (He1 : k_e k <> 1) by lra.
  assert (He0 : 0 < k_e k) by (unfold eccentric_orbit in Ee; lra).
  apply (C53_direct_partial gb gb n idx kw s j (fin6 x) (fin6 k) (Fin m)); auto.
  - apply nan_arith_num.
  - intros Q. apply has_nan_iff in Q. rewrite fin6_nan in Q. discriminate.
  - pose proof (C07_roundtrip mu k x Vk He1 Ee Hi H1 H2 H3 Hx) as El.
    exists (fin6 k). rewrite c2k_one, Ed, Et. change (mu_orbit s (Fin m)) with (mul (oG s) (add (oM0 s) (Fin m))).
    rewrite Em, (elements_of_fun _ _ _ _ El (elements_of_col mu x)). auto.
  - assert (x = peri_state mu k) as -> by now apply state_of_inv.
    assert (He2 : 0 <= s1 k < 1) by (unfold k_e in *; split; lra).
    apply (cartesian_of_real s k m mu (s5 k)); auto.
    + congruence.
    + rewrite Et, Ed. apply cong_refl.
    + rewrite Ed. f_equal.
Qed.

(** ** Refutations *)
(** recalculated arguments of periapsis are at most 2 pi *)
Lemma kall_om gb n (s : orb) j x m mu : lens n s -> otype s = ATrue -> odeg s = false -> (j < n)%nat ->
  nth_error (ocart s) j = Some (fin6 x) -> nth_error (om s) j = Some (Fin m) -> mu_real s m mu -> 0 < mu ->
  ang_mom x <> (0,0,0) ->
  exists k w, nth_error (okep (kall gb s)) j = Some k /\ s3 k = Fin w /\ w <= 2 * PI.
Proof.
  intros Hs Et Ed Hj Hc Hm Em Hmu Hx. destruct (kall_spec gb n s Hs) as [_ [_ [K1 [_ [_ [_ [_ [_ K]]]]]]]].
  destruct (col_ex n s j Hs Hj) as [c [k [m' [cb [kb C]]]]]. destruct (K _ _ _ _ _ _ C) as [c' [k' [cb' [kb' [C' [_ [_ [_ R]]]]]]]].
  assert (c = fin6 x) by (destruct C; congruence). assert (m' = Fin m) by (destruct C; congruence). subst c m'.
  destruct (R (fin6_nan x)) as [[g Q] _]. unfold kconv in Q. rewrite Et, Ed in Q.
  change (mu_of s (Fin m)) with (mul (oG s) (add (oM0 s) (Fin m))) in Q. rewrite Em in Q.
  destruct (C06_elements mu x Hmu Hx) as [a [e [i [w [Om [nu [El [_ [_ [_ [Hw _]]]]]]]]]]].
  rewrite (elements_of_fun _ _ _ _ (elements_of_col mu x) El) in Q. exists k', w. split; [now destruct C'|]. subst k'. cbn. split; [auto|lra].
Qed.
(** a = 1, e = 1/2, i = pi/2, omega = 9 > 2 pi *)
Definition k9 : six R := mk6 1 (1/2) (PI/2) 9 0 0.
Lemma k9_valid : valid_kep 1 k9.
Proof. unfold valid_kep, k_a, k_e, k_nu, k9. cbn [s0 s1 s5]. rewrite cos_0. lra. Qed.
(** two orbits, G = 1, central mass 1, radians, type true, direct mode *)
Definition cfg2 : config num := mkconfig true true (Fin 1) default_options false "true"%string 2 false false.
Definition s_two : orb :=
  mkorb (Fin 1) (Fin 1) true true false false false ATrue default_options
    [lit 0; lit 0] [nan6c; nan6c] [nan6c; nan6c] [nan; nan] (fresh [2%nat] [nan; nan]) [nan; nan] [false; false] [false; false] None.
Lemma s_two_init gb : init gb (Fin 1) cfg2 no_kws = Ok s_two. Proof. reflexivity. Qed.
Lemma s_two_lens : lens 2 s_two. Proof. now constructor. Qed.
(** [orb.kepler = k0]: both orbits have these elements and the Cartesian ones of [k0] *)
Lemma s_two_gen gb k0 : valid_kep 1 k0 -> s1 k0 < 1 -> exists sa, set_kepler gb (kvec k0) s_two = (sa, Ok tt) /\ aligned 2 sa /\ settings sa = settings s_two
  /\ okep sa = [fin6 k0; fin6 k0] /\ om sa = [Fin 0; Fin 0]
  /\ forall j, (j < 2)%nat -> nth_error (ocart sa) j = Some (fin6 (peri_state 1 k0)).
Proof.
  intros V9 He9. pose proof V9 as [_ [V9a [V9e _]]]. unfold k_a, k_e in V9a, V9e. pose proof s_two_lens as Hs. rewrite (set_kepler_eq gb 2) by (auto; split; reflexivity).
  change (okro s_two) with false. change (whole_value 2 (kvec k0)) with (Ok [fin6 k0; fin6 k0]).
  set (sx := with_kep (fun _ => [fin6 k0; fin6 k0]) s_two). assert (Hx : lens 2 sx) by now constructor.
  change (aft_kep gb sx) with (call_ gb sx). exists (call_ gb sx). split; [reflexivity|].
  destruct (call_spec gb 2 sx Hx) as [_ [K1 [K2 [K3 [K5 [_ [_ K4]]]]]]].
  split; [split; [auto|]|]. { exists [nan; nan]. rewrite K5. auto. }
  split; [exact K2|]. split; [now rewrite (call_okep gb 2)|]. split; [rewrite K3; cbn [om sx with_kep s_two]; now rewrite lit_0|].
  intros j Hj. destruct (col_ex 2 sx j Hx Hj) as [c [k [m [cb [kb C]]]]].
  destruct (K4 _ _ _ _ _ _ C) as [c' [k' [cb' [kb' [C' [_ R]]]]]].
  assert (k = fin6 k0) by (destruct C as [_ Q _ _ _]; destruct j as [|[|]]; try lia; cbn in Q; congruence).
  assert (m = Fin 0) by (destruct C as [_ _ Q _ _]; destruct j as [|[|]]; try lia; cbn [nth_error om sx with_kep s_two] in Q; rewrite lit_0 in Q; congruence). subst k m.
  destruct R as [[[Q|Q] _]|[_ [_ [_ R]]]]; [discriminate|rewrite fin6_nan in Q; discriminate|].
  destruct (R eq_refl) as [_ Rc].
  assert (Em : mu_real sx 0 1) by (unfold mu_real; cbn; num; f_equal; lra).
  assert (Ht : otype sx <> AMean) by discriminate.
  pose proof (Cc_real sx k0 0 1 c' ltac:(lra) V9a (conj V9e He9) Em Ht Rc (s5 k0) (cong_refl _)) as Rr.
  rewrite (col_c _ _ _ _ _ _ _ C'), Rr. now destruct k0.
Qed.
Lemma s_two_kepler gb : exists sa, set_kepler gb (kvec k9) s_two = (sa, Ok tt) /\ aligned 2 sa /\ settings sa = settings s_two
  /\ okep sa = [fin6 k9; fin6 k9] /\ om sa = [Fin 0; Fin 0]
  /\ forall j, (j < 2)%nat -> nth_error (ocart sa) j = Some (fin6 (peri_state 1 k9)).
Proof. apply s_two_gen; [apply k9_valid|cbn; lra]. Qed.
Lemma two_settings (sa : orb) : settings sa = settings s_two -> otype sa = ATrue /\ odeg sa = false /\ odirect sa = true
  /\ ocro sa = false /\ mu_real sa 0 1.
Proof.
  intros S. apply settings_eq in S. destruct S as [E1 [E2 [_ [E4 [_ [E6 [E7 [E8 _]]]]]]]].
  cbn in E1, E2, E4, E6, E7, E8. repeat (split; [assumption|]). unfold mu_real. rewrite E1, E2. num. f_equal. lra.
Qed.
(** updating orbit 0 recalculates orbit 1 *)
Theorem C53_direct_refuted : forall gb gb' gb'', exists s sa sb k w,
  init gb (Fin 1) cfg2 no_kws = Ok s /\ set_kepler gb' (kvec k9) s = (sa, Ok tt)
  /\ update gb'' (IInt 0) (mkkws (Some (Sc (Fin 1))) None None no6 no6) sa = (sb, Ok tt)
  /\ ~ selected 2 (IInt 0) 1 /\ nth_error (okep sa) 1 = Some (fin6 k9)
  /\ nth_error (okep sb) 1 = Some k /\ s3 k = Fin w /\ w < 9.
Proof.
  intros gb gb' gb''. destruct (s_two_kepler gb') as [sa [E1 [[A _] [S [Ka [Ma Ca]]]]]].
  destruct (two_settings sa S) as [Et [Ed [Dr [Oc Em]]]].
  set (cs := put [0%nat] [six_of (fun _ => Fin 1)] (ocart sa)).
  set (sx := with_cart (fun _ => cs) sa).
  assert (Hx : lens 2 sx) by (apply lens_with_cart; auto; unfold cs; rewrite put_length; now destruct A).
  assert (E2 : update gb'' (IInt 0) (mkkws (Some (Sc (Fin 1))) None None no6 no6) sa = (kall gb'' sx, Ok tt)).
  { unfold update. rewrite bind_get. cbn [kw_cartesian]. rewrite Oc, bind_lift. unfold assign_cols. rewrite (l_c 2 sa A).
    change (resolve 2 (IInt 0)) with (Ok [0%nat]). cbn [rbind bcast1 length repeat]. rewrite bind_modify.
    change (with_cart (fun _ => put [0%nat] [six_of (fun i => nth i [Fin 1; Fin 1; Fin 1; Fin 1; Fin 1; Fin 1] nan)] (ocart sa)) sa) with sx.
    rewrite (mark_cart_eq gb'' 2 (IInt 0) [0%nat]) by auto. unfold aft_cart_at. change (odirect sx) with (odirect sa). now rewrite Dr. }
  destruct (kall_om gb'' 2 sx 1 (peri_state 1 k9) 0 1 Hx Et Ed) as [k [w [Hk [Hw Lw]]]]; auto; try lra.
  - unfold sx, cs. cbn [ocart with_cart]. rewrite put_other by (cbn; lia). apply Ca. lia.
  - cbn [om with_cart sx]. now rewrite Ma.
  - apply peri_h_nz, k9_valid.
  - exists s_two, sa, (kall gb'' sx), k, w. split; [reflexivity|]. split; [exact E1|]. split; [exact E2|].
    split; [intros [_ [Q|Q]]; cbn in Q; lia|]. split; [now rewrite Ka|]. split; [exact Hk|]. split; [exact Hw|]. pose proof PI_4. lra.
Qed.
(** adding an orbit recalculates the existing ones *)
Theorem C51_add_direct_refuted : forall gb gb' gb'', exists s sa sb k w,
  init gb (Fin 1) cfg2 no_kws = Ok s /\ set_kepler gb' (kvec k9) s = (sa, Ok tt)
  /\ add_orbits gb'' 1 (mkkws (Some (Sc (Fin 1))) None None no6 no6) sa = (sb, Ok tt)
  /\ nth_error (okep sa) 1 = Some (fin6 k9)
  /\ nth_error (okep sb) 1 = Some k /\ s3 k = Fin w /\ w < 9.
Proof.
  intros gb gb' gb''. destruct (s_two_kepler gb') as [sa [E1 [A0 [S [Ka [Ma Ca]]]]]]. pose proof A0 as [A _].
  destruct (two_settings sa S) as [Et [Ed [Dr [Oc Em]]]].
  pose proof (app_aligned 2 1 sa A0) as [Hp _]. set (sp := app_state 1 sa) in *.
  set (cs := put [2%nat] [six_of (fun _ => Fin 1)] (ocart sp)).
  set (sx := with_cart (fun _ => cs) sp).
  assert (Hx : lens 3 sx) by (apply lens_with_cart; auto; unfold cs; rewrite put_length; apply (l_c 3 sp Hp)).
  assert (E2 : add_orbits gb'' 1 (mkkws (Some (Sc (Fin 1))) None None no6 no6) sa = (kall gb'' sx, Ok tt)).
  { rewrite (add_eq gb'' 2) by auto. cbn [kw_m]. fold sp. unfold update. rewrite bind_get. cbn [kw_cartesian drop_m].
    change (ocro sp) with (ocro sa). rewrite Oc, bind_lift. unfold assign_cols. rewrite (l_c (2 + 1) sp Hp).
    change (resolve (2 + 1) (IRange 2 (2 + 1))) with (Ok [2%nat]). cbn [rbind bcast2 length repeat map]. rewrite bind_modify.
    change (with_cart (fun _ => put [2%nat] [six_of (fun _ => Fin 1)] (ocart sp)) sp) with sx.
    rewrite (mark_cart_eq gb'' 3 (IRange 2 (2 + 1)) [2%nat]) by auto. unfold aft_cart_at. change (odirect sx) with (odirect sa). now rewrite Dr. }
  destruct (kall_om gb'' 3 sx 1 (peri_state 1 k9) 0 1 Hx Et Ed) as [k [w [Hk [Hw Lw]]]]; auto; try lra.
  - unfold sx, cs. cbn [ocart with_cart]. rewrite put_other by (cbn; lia). cbn [ocart sp app_state].
    rewrite nth_error_app1 by (rewrite (l_c 2 sa A); lia). apply Ca. lia.
  - cbn [om with_cart sx sp app_state]. now rewrite Ma.
  - apply peri_h_nz, k9_valid.
  - exists s_two, sa, (kall gb'' sx), k, w. split; [reflexivity|]. split; [exact E1|]. split; [exact E2|].
    split; [now rewrite Ka|]. split; [exact Hk|]. split; [exact Hw|]. pose proof PI_4. lra.
Qed.
(** the hypotheses of C53_direct_real_partial: two orbits given by [orb.kepler = k], orbit 0 selected *)
Example C53_direct_example : forall gb, exists s sa k x, init gb (Fin 1) cfg2 no_kws = Ok s
  /\ set_kepler gb (kvec k) s = (sa, Ok tt) /\ lens 2 sa /\ odirect sa = true
  /\ otype sa = ATrue /\ odeg sa = false /\ valid_index 2 (IInt 0) /\ ~ selected 2 (IInt 0) 1
  /\ nth_error (okep sa) 1 = Some (fin6 k) /\ nth_error (ocart sa) 1 = Some (fin6 x) /\ nth_error (om sa) 1 = Some (Fin 0)
  /\ mu_real sa 0 1 /\ valid_kep 1 k /\ k_e k < 1
  /\ eccentric_orbit (k_e k) /\ inclined_orbit (k_i k) /\ in_circle (k_om k) /\ in_circle (k_Om k) /\ in_circle (k_nu k)
  /\ state_of 1 k x.
Proof.
  intros gb. pose proof PI_RGT_0. pose proof (COS_bound 1). pose proof PI2_1.
  assert (Vk : valid_kep 1 (ktp 1)) by (unfold valid_kep, k_a, k_e, k_nu, ktp; cbn [s0 s1 s5]; repeat split; lra).
  assert (He : s1 (ktp 1) < 1) by (unfold ktp; cbn [s1]; lra).
  destruct (s_two_gen gb (ktp 1) Vk He) as [sa [E1 [[A _] [S [Ka [Ma Ca]]]]]].
  destruct (two_settings sa S) as [Et [Ed [Dr [Oc Em]]]].
  exists s_two, sa, (ktp 1), (peri_state 1 (ktp 1)).
  split; [reflexivity|]. split; [exact E1|]. split; [exact A|]. split; [exact Dr|]. split; [exact Et|]. split; [exact Ed|].
  split; [exists 0%nat; split; [lia|now left]|]. split; [intros [_ [Q|Q]]; cbn in Q; lia|].
  split; [now rewrite Ka|]. split; [apply Ca; lia|]. split; [now rewrite Ma|]. split; [exact Em|]. split; [exact Vk|].
  unfold eccentric_orbit, inclined_orbit, in_circle, k_e, k_i, k_om, k_Om, k_nu, ktp; cbn [s1 s2 s3 s4 s5].
  repeat (split; [lra|]). now apply state_of_peri.
Qed.
