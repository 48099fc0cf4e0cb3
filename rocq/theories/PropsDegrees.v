(** * C14 (degrees flag), C11 and C24 over the reals *)
From Coq Require Import Reals QArith Qreals ZArith Lra Lia Bool List Arith.
From Verif Require Import NP NPReal Spec RealBase KeplerModel ConvModel Lists ConvCols ArraySpec
  AnomReal PropsAnomaly PropsArray PropsAnomalyR PropsSolver.
Import ListNotations.
Local Open Scope R_scope.

(** ** C14 *)
(** apply a function to the angular rows (2..5) of a (6,) or (6,N) array, resp. to row 5 *)
Definition on_angles {F} (f : F -> F) (x : kinput F) : kinput F :=
  match x with KVec c => KVec (ang6 f c) | KMat l => KMat (map (ang6 f) l) | _ => x end.
Definition on_last {F} (f : F -> F) (x : kinput F) : kinput F :=
  let g c := mk6 (s0 c) (s1 c) (s2 c) (s3 c) (s4 c) (f (s5 c)) in
  match x with KVec c => KVec (g c) | KMat l => KMat (map g l) | _ => x end.

Section Generic.
Context {F : Type} `{NP F}.
(** any arithmetic: cart_to_kep(x, degrees) = degrees of cart_to_kep(x); kep_to_cart(k, degrees) =
    kep_to_cart of the array in radians *)
Theorem C14_cart_kep : forall g g1 (x : kinput F) mu,
  snd (cart_to_kep g x mu true) = rbind (snd (cart_to_kep g x mu false)) (fun y => Ok (on_angles degrees y))
  /\ snd (kep_to_cart g1 x mu true) = snd (kep_to_cart g1 (on_angles radians x) mu false).
Proof.
  intros g g1 x mu. destruct x as [| |s|c|l]; try (split; reflexivity).
  - split.
    + destruct (mu_bcast 1 mu) as [mus|x] eqn:E.
      * destruct (cart_to_kep_vec g c mu true mus E) as [m [Hm ->]].
        destruct (cart_to_kep_vec g c mu false mus E) as [m' [Hm' ->]].
        assert (m' = m) as -> by congruence. reflexivity.
      * cbn [cart_to_kep snd fst]. rewrite E. reflexivity.
    + cbn [on_angles]. destruct (mu_mask 1 mu) as [mus|x] eqn:E.
      * destruct (kep_to_cart_vec g1 c mu true mus E) as [m [Hm ->]].
        destruct (kep_to_cart_vec g1 (ang6 radians c) mu false mus E) as [m' [Hm' ->]].
        assert (m' = m) as -> by congruence. reflexivity.
      * cbn [kep_to_cart snd fst]. rewrite E. reflexivity.
  - split.
    + destruct (mu_bcast (length l) mu) as [mus|x] eqn:E.
      * rewrite (cart_to_kep_mat g l mu true mus E), (cart_to_kep_mat g l mu false mus E).
        cbn [snd rbind on_angles]. f_equal. f_equal. clear E. revert mus; induction l as [|c l IH]; intros [|m mus]; try reflexivity.
        cbn [map2 map]. rewrite IH. reflexivity.
      * cbn [cart_to_kep snd fst]. rewrite E. reflexivity.
    + cbn [on_angles]. assert (Hl : length (map (ang6 radians) l) = length l) by apply map_length.
      destruct (mu_mask (length l) mu) as [mus|x] eqn:E.
      * rewrite (kep_to_cart_mat g1 l mu true mus E).
        rewrite (kep_to_cart_mat g1 (map (ang6 radians) l) mu false mus) by (now rewrite Hl).
        cbn [snd]. rewrite map2_map_l. reflexivity.
      * cbn [kep_to_cart snd fst]. rewrite Hl, E. reflexivity.
Qed.
(** any arithmetic, the anomaly functions *)
Theorem C14_anomalies : forall g1 g2 o (x e : arg F),
  let deg f := rbind (f (amap radians x)) (fun r => Ok (amap degrees r)) in
  true_to_eccentric g1 x e true = deg (fun x => true_to_eccentric g1 x e false)
  /\ eccentric_to_true g1 x e true = deg (fun x => eccentric_to_true g1 x e false)
  /\ eccentric_to_mean g1 x e true = deg (fun x => eccentric_to_mean g1 x e false)
  /\ true_to_mean g1 g2 x e true = deg (fun x => true_to_mean g1 g2 x e false)
  /\ mean_to_true g1 x e o true = deg (fun x => mean_to_true g1 x e o false).
Proof.
  intros g1 g2 o x e. cbv zeta.
  unfold true_to_eccentric, eccentric_to_true, eccentric_to_mean, true_to_mean, mean_to_true. cbn [in_rad out_deg].
  repeat split.
  - destruct (broadcast _ _) as [[|]|]; reflexivity.
  - destruct (broadcast _ _) as [[|]|]; reflexivity.
  - destruct (broadcast _ _) as [[|]|]; reflexivity.
  - destruct (true_to_eccentric _ _ _ _) as [r|]; [|reflexivity]. cbn [rbind].
    destruct (eccentric_to_mean _ _ _ _) as [r'|]; reflexivity.
  - destruct (mean_to_eccentric _ _ _ _) as [r|]; [|reflexivity]. cbn [rbind].
    destruct (eccentric_to_true _ _ _ _) as [r'|]; reflexivity.
Qed.
End Generic.

Lemma deg_rad (x : num) : degrees (radians x) = x.
Proof.
  pose proof PI_RGT_0 as P. destruct x as [x| | |]; [|unfold radians, degrees; num..]; num.
  - f_equal. field. lra.
  - rewrite !Fin_div by lra. assert (0 < PI / 180) by lra. assert (0 < 180 / PI) by (apply Rdiv_lt_0_compat; lra).
    cbn. unfold num_sign. destruct (Rlt_dec 0 (PI / 180)); [|lra]. cbn. unfold num_sign.
    destruct (Rlt_dec 0 (180 / PI)); [|lra]. reflexivity.
  - rewrite !Fin_div by lra. assert (0 < PI / 180) by lra. assert (0 < 180 / PI) by (apply Rdiv_lt_0_compat; lra).
    cbn. unfold num_sign. destruct (Rlt_dec 0 (PI / 180)); [|lra]. cbn. unfold num_sign.
    destruct (Rlt_dec 0 (180 / PI)); [|lra]. reflexivity.
  - reflexivity.
Qed.
(** mean_to_eccentric, exact arithmetic (the e == 0 shortcut returns the argument itself) *)
Theorem C14_mean_to_eccentric : forall o (x e : arg num), (forall m v, x <> Arr [] m [v]) ->
  mean_to_eccentric x e o true
  = rbind (mean_to_eccentric (amap radians x) e o false) (fun r => Ok (amap degrees r)).
Proof.
  intros o x e Hx. unfold mean_to_eccentric. cbn [in_rad out_deg].
  destruct x as [v|s m d], e as [w|s' m' d'].
  - cbn [amap broadcast rbind]. destruct (eqb w (lit 0)); cbn [rbind amap]; [now rewrite deg_rad|reflexivity].
  - cbn [amap broadcast rbind]. rewrite !map_length. destruct (length d' =? 0)%nat eqn:E; [|reflexivity].
    cbn [rbind]. apply Nat.eqb_eq in E. destruct s' as [|? [|? ?]]; reflexivity.
  - assert (A : exists m0, amap radians (Arr s m d) = Arr s m0 (map radians d)).
    { destruct s as [|? [|? s]]; [|eexists; reflexivity..]. destruct d as [|v [|]]; [eexists; reflexivity| |eexists; reflexivity]. now destruct (Hx m v). }
    destruct A as [m0 A]. rewrite A. cbn [broadcast rbind]. destruct (length (map radians d) =? 0)%nat; [|reflexivity].
    cbn [rbind]. destruct s as [|? [|? ?]]; reflexivity.
  - assert (A : exists m0, amap radians (Arr s m d) = Arr s m0 (map radians d)).
    { destruct s as [|? [|? s]]; [|eexists; reflexivity..]. destruct d as [|v [|]]; [eexists; reflexivity| |eexists; reflexivity]. now destruct (Hx m v). }
    destruct A as [m0 A]. rewrite A. cbn [broadcast]. destruct (shape_eqb s s'); [|reflexivity]. cbn [rbind].
    destruct (length (map radians d) =? 0)%nat; [|reflexivity]. cbn [rbind]. destruct s as [|? [|? ?]]; reflexivity.
Qed.
(** equinoctial conversions of finite elements, exact arithmetic *)
Definition fin_input (x : kinput num) : Prop :=
  match x with
  | KVec c => exists k, c = fin6 k
  | KMat l => exists ks, l = map fin6 ks
  | _ => False
  end.
Lemma Rmod_scale x y k : 0 < y -> 0 < k -> Rmod (x * k) (y * k) = Rmod x y * k.
Proof.
  intros Hy Hk. destruct (Rmod_spec x y Hy) as [H1 [n H2]].
  apply Rmod_unique; [nra| |].
  - split; [nra|]. apply Rmult_lt_compat_r; lra.
  - exists n. rewrite H2. ring.
Qed.
Lemma deg_k2q k : k2q_col true (fin6 k)
  = let c := k2q_col false (ang6 radians (fin6 k)) in
    mk6 (s0 c) (s1 c) (s2 c) (s3 c) (s4 c) (degrees (s5 c)).
Proof.
  pose proof PI_RGT_0. unfold k2q_col, fin6, map6, ang6, circ. cbn [s0 s1 s2 s3 s4 s5]. cbv zeta. num.
  rewrite !Fin_mod by lra. num.
  rewrite (Rmult_plus_distr_r (s3 k) (s4 k) (PI / 180)), (Rmult_assoc (/ 2) (s2 k) (PI / 180)).
  f_equal. f_equal. replace (Rmod _ (2 * PI)) with (Rmod (s3 k + s4 k + s5 k + 360) 360 * (PI / 180)).
  2:{ rewrite <- Rmod_scale by lra. f_equal; field. }
  field. lra.
Qed.
Lemma deg_q2k k : q2k_col true (fin6 k)
  = ang6 degrees (q2k_col false (let c := fin6 k in mk6 (s0 c) (s1 c) (s2 c) (s3 c) (s4 c) (radians (s5 c)))).
Proof.
  pose proof PI_RGT_0. unfold q2k_col, fin6, map6, ang6, circ. cbn [s0 s1 s2 s3 s4 s5]. cbv zeta. num.
  rewrite !Fin_sqrt by nra. num. 
  assert (K : forall x, Rmod (x * (180 / PI) + 360) 360 = Rmod (x + 2 * PI) (2 * PI) * (180 / PI)).
  { intros x. rewrite <- Rmod_scale; try lra; [|apply Rdiv_lt_0_compat; lra]. f_equal; field; lra. }
  assert (K2 : forall x y, x - y * (180 / PI) = (x * (PI / 180) - y) * (180 / PI)) by (intros; field; lra).
  unfold e_lim. num. f_equal.
  - destruct (Rltb _ _); num; rewrite !Fin_mod by lra; num; f_equal.
    + rewrite <- K. f_equal. lra.
    + rewrite <- K. f_equal. lra.
  - rewrite !Fin_mod by lra. num. f_equal. apply K.
  - destruct (Rltb _ _); num; rewrite !Fin_mod by lra; num; f_equal; rewrite K2; apply K.
Qed.
Theorem C14_equinoctial : forall g (x : kinput num), fin_input x ->
  kep_to_equi x true = rbind (kep_to_equi (on_angles radians x) false) (fun y => Ok (on_last degrees y))
  /\ equi_to_kep g x true = rbind (equi_to_kep g (on_last radians x) false) (fun y => Ok (on_angles degrees y)).
Proof.
  intros g x Hx. destruct x as [| |s|c|l]; try contradiction.
  - destruct Hx as [k ->]. unfold kep_to_equi, equi_to_kep, on_cols, on_angles, on_last.
    rewrite !kep_to_equi_cols_map, !equi_to_kep_cols_map. cbn [map rbind]. rewrite deg_k2q, deg_q2k. auto.
  - destruct Hx as [ks ->]. unfold kep_to_equi, equi_to_kep, on_cols, on_angles, on_last. cbn [rbind].
    rewrite !kep_to_equi_cols_map, !equi_to_kep_cols_map. rewrite !map_map. split; f_equal; f_equal; apply map_ext; intros k.
    + apply deg_k2q.
    + apply deg_q2k.
Qed.
Example C14_example : fin_input (KMat [fin6 (mk6 2 (1/2) 30 60 90 120); fin6 (mk6 3 0 180 0 0 360)])
  /\ forall m v, Sc (Fin 90) <> Arr [] m [v].
Proof. split; [|easy]. now exists [mk6 2 (1/2) 30 60 90 120; mk6 3 0 180 0 0 360]. Qed.

(** ** C11 over the reals *)
(** With exact arithmetic kep_to_cart restores its argument (both units) if no orbit is
    hyperbolic ... *)
Theorem C11_kep_to_cart_real_partial : forall g l mu deg y,
  (forall c, In c l -> ~ 1 < k_e c) -> 
  snd (kep_to_cart g (KMat (map fin6 l)) mu deg) = Ok y ->
  fst (kep_to_cart g (KMat (map fin6 l)) mu deg) = KMat (map fin6 l).
Proof.
  intros g l mu deg y He Hy. destruct (mu_mask (length (map fin6 l)) mu) as [mus|x] eqn:E.
  - rewrite (kep_to_cart_mat _ _ _ _ _ E). cbn [fst]. f_equal. rewrite map_map. apply map_ext_in.
    intros k Hk. specialize (He k Hk). unfold edit_col. 
    assert (X : forall c : six num, s1 c = Fin (k_e k) -> ltb (lit 1) (s1 c) = false).
    { intros c ->. num. apply Rltb_false. lra. }
    destruct deg; cbv zeta.
    + rewrite X by reflexivity. unfold ang6, fin6, map6. cbn [s0 s1 s2 s3 s4 s5]. now rewrite !deg_rad.
    + rewrite X by reflexivity. reflexivity.
  - cbn [kep_to_cart snd fst] in Hy. rewrite E in Hy. discriminate.
Qed.
(** ... and otherwise returns with the caller's hyperbolic semi-major axes negated. *)
Theorem C11_kep_to_cart_refuted : forall g k mu deg, 1 < k_e k -> k_a k <> 0 ->
  fst (kep_to_cart g (KVec (fin6 k)) (MuS mu) deg)
    = KVec (fin6 (mk6 (- k_a k) (k_e k) (k_i k) (k_om k) (k_Om k) (k_nu k)))
  /\ fst (kep_to_cart g (KVec (fin6 k)) (MuS mu) deg) <> KVec (fin6 k).
Proof.
  intros g k mu deg He Ha.
  assert (E : fst (kep_to_cart g (KVec (fin6 k)) (MuS mu) deg)
    = KVec (fin6 (mk6 (- k_a k) (k_e k) (k_i k) (k_om k) (k_Om k) (k_nu k)))).
  { destruct (kep_to_cart_vec g (fin6 k) (MuS mu) deg [mu] eq_refl) as [m [_ ->]]. cbn [fst].
    f_equal. unfold edit_col. 
    assert (X : forall c : six num, s1 c = Fin (k_e k) -> ltb (lit 1) (s1 c) = true).
    { intros c ->. num. apply Rltb_true. lra. }
    destruct deg; cbv zeta.
    + rewrite X by reflexivity. unfold ang6, fin6, map6. cbn [s0 s1 s2 s3 s4 s5]. rewrite !deg_rad. num.
      unfold k_a. f_equal. f_equal. lra.
    + rewrite X by reflexivity. unfold fin6, map6. cbn [s0 s1 s2 s3 s4 s5]. num. unfold k_a. f_equal. f_equal. lra. }
  split; [exact E|]. rewrite E. intros D. injection D as D. unfold k_a in *. lra.
Qed.
Example C11_refuted_example : 1 < k_e (mk6 2 3 1 2 3 0) /\ k_a (mk6 2 3 1 2 3 0) <> 0.
Proof. unfold k_e, k_a; cbn. lra. Qed.

(** ** C24 over the reals *)
Definition finite (x : num) : Prop := exists r, x = Fin r.
Lemma ordered_fin e : ordered1 (Fin e).
Proof.
  unfold ordered1. num. destruct (Rltb_spec 1 e), (Reqb_spec e 1), (Rltb_spec e 1); try lra; exact I.
Qed.
Lemma m2e_el_zero o t M : tol o = Fin t -> 0 < t -> m2e_el o (Fin M) (Fin 0) = Fin M.
Proof.
  intros Ht Hp. unfold m2e_el. num. rewrite Rltb_false, Reqb_false by lra.
  rewrite get_guess_real by lra.
  assert (guessR M 0 = M) as ->.
  { unfold guessR, guess_half. destruct (Rltb PI M); destruct (Rltb _ (/4)); [|destruct (Rltb _ 2)| |destruct (Rltb _ 2)];
      unfold Rdiv; rewrite ?Rmult_0_l; lra. }
  destruct (C18_laguerre_terminates (Fin M) (Fin M) (Fin 0) o) as [k [_ [K1 [_ [_ [_ K2]]]]]].
  rewrite K1. cbn [fst]. rewrite K2; [reflexivity|]. rewrite lag_f_real, Ht by lra. num.
  rewrite Rleb_false; auto. unfold kepler_M. destruct (Rlt_dec 0 1); [|lra].
  replace (M - (M - 0 * sin M)) with 0 by ring. rewrite Rabs_R0. lra.
Qed.
(** In exact arithmetic every anomaly conversion is element-wise for finite arguments in C order,
    whatever the eccentricities (0 included).  Missing: NaN eccentricities and other memory
    orders, refuted below. *)
Theorem C24_real_partial : forall g g1 g2 o t deg (x e : arg num),
  wf_arg x -> wf_arg e -> compatible x e -> c_order x -> c_order e ->
  (forall v, In v (entries x) -> finite v) -> (forall v, In v (entries e) -> finite v) ->
  tol o = Fin t -> 0 < t ->
  elementwise (fun x e => true_to_eccentric g x e deg) x e
  /\ elementwise (fun x e => eccentric_to_true g x e deg) x e
  /\ elementwise (fun x e => eccentric_to_mean g x e deg) x e
  /\ elementwise (fun x e => true_to_mean g1 g2 x e deg) x e
  /\ elementwise (fun x e => mean_to_eccentric x e o deg) x e
  /\ elementwise (fun x e => mean_to_true g x e o deg) x e.
Proof.
  intros g g1 g2 o t deg x e Hx He Hc Cx Ce Fx Fe Ht Hp.
  assert (Ho : ordered_all e).
  { intros v Hv. destruct (Fe v Hv) as [r ->]. apply ordered_fin. }
  destruct (C24_elementwise_partial g g1 g2 o deg x e Hx He Hc Ho) as [A [B [C [D _]]]].
  split; [exact A|]. split; [exact B|]. split; [exact C|]. split; [exact D|].
  assert (Z : forall a b, In a (entries x) -> In b (entries e) -> eqb b (lit 0) = true ->
     exists r, a = Fin r /\ b = Fin 0).
  { intros a b Ha Hb. destruct (Fx a Ha) as [r ->], (Fe b Hb) as [s ->]. num.
    destruct (Reqb_spec s 0); [|easy]. subst. eauto. }
  split.
  - apply elementwise_m2e; auto. intros a b Ha Hb E. destruct (Z a b Ha Hb E) as [r [-> ->]].
    destruct deg; cbn [out_deg amap].
    + num. rewrite (m2e_el_zero o t), <- Fin_radians, deg_rad by auto. reflexivity.
    + now rewrite (m2e_el_zero o t).
  - apply elementwise_m2t; auto. intros a b Ha Hb E. destruct (Z a b Ha Hb E) as [r [-> ->]].
    destruct deg; num; now rewrite (m2e_el_zero o t).
Qed.
(** A NaN eccentricity in an array leaves the np.empty content in the result (the float call
    gives NaN). *)
Theorem C24_nan_refuted : forall (x garbage : R),
  eccentric_to_mean (fun _ => Fin garbage) (Arr [1%nat] [0%nat] [Fin x]) (Arr [1%nat] [0%nat] [NaN]) false
    = Ok (fresh [1%nat] [Fin garbage])
  /\ forall g, eccentric_to_mean g (Sc (Fin x)) (Sc NaN) false = Ok (Sc NaN).
Proof.
  intros x garbage. split; [|intros g].
  - unfold eccentric_to_mean. cbn [in_rad broadcast shape_eqb Nat.eqb andb rbind out_deg].
    unfold by_masks, hyp_of, per_of, eli_of. cbn [map]. num. reflexivity.
  - unfold eccentric_to_mean. cbn [in_rad broadcast rbind out_deg]. unfold by_cases. num. reflexivity.
Qed.
(** mean_to_eccentric walks its argument in memory order: the reversed view of the contiguous
    array (4/3, 0), logically (0, 4/3), gives (1, 0) instead of (0, 1). *)
Theorem C24_order_refuted : forall o,
  mean_to_eccentric (Arr [2%nat] [1%nat; 0%nat] [Fin 0; Fin (4/3)]) (Sc (Fin 1)) o false
    = Ok (fresh [2%nat] [Fin 1; Fin 0])
  /\ m2e o 0 1 (Fin 0) /\ m2e o (4/3) 1 (Fin 1).
Proof.
  intros o.
  assert (A : m2e o 0 1 (Fin 0)).
  { pose proof (C21_inverse o 0) as H. unfold kepler_M in H. destruct (Rlt_dec 1 1); [lra|].
    replace (0 + 0 * 0 * 0 / 3) with 0 in H by field. exact H. }
  assert (B : m2e o (4/3) 1 (Fin 1)).
  { pose proof (C21_inverse o 1) as H. unfold kepler_M in H. destruct (Rlt_dec 1 1); [lra|].
    replace (1 + 1 * 1 * 1 / 3) with (4/3) in H by field. exact H. }
  split; [|auto].
  pose proof (m2e_nz o 0 1) as A'. pose proof (m2e_nz o (4/3) 1) as B'.
  assert (N : 1 <> 0) by lra. specialize (A' N). specialize (B' N). unfold m2e in *.
  rewrite A in A'. rewrite B in B'. injection A' as A'. injection B' as B'.
  unfold mean_to_eccentric. cbn [in_rad broadcast rbind length Nat.eqb out_deg map seq nditer nth map2].
  rewrite <- A', <- B'. reflexivity.
Qed.
Example C24_real_example : exists r,
  mean_to_eccentric (Arr [2%nat] [0%nat; 1%nat] [Fin PI; Fin 1]) (Arr [2%nat] [0%nat; 1%nat] [Fin (1/2); Fin 0])
    default_options false = Ok r /\ nth_error (entries r) 1 = Some (Fin 1).
Proof.
  destruct (C24_real_partial (fun _ => NaN) (fun _ => NaN) (fun _ => NaN) default_options (/1000000000000) false
    (Arr [2%nat] [0%nat; 1%nat] [Fin PI; Fin 1]) (Arr [2%nat] [0%nat; 1%nat] [Fin (1/2); Fin 0]))
    as [_ [_ [_ [_ [[r [H1 [_ [_ H2]]]] _]]]]]; try reflexivity.
  - intros v [<-|[<-|[]]]; eexists; reflexivity.
  - intros v [<-|[<-|[]]]; eexists; reflexivity.
  - cbn [tol default_options]. now num.
  - lra.
  - exists r. split; auto. destruct (H2 1%nat (Fin 1) (Fin 0)) as [y [Y1 Y2]]; auto.
    pose proof (m2e_zero default_options 1) as Z. unfold m2e in Z. rewrite Y2. congruence.
Qed.
