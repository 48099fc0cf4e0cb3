(** * C14 and C34: the degrees flag of the equinoctial conversions, every input *)
From Coq Require Import Reals QArith Qreals ZArith Lra Lia Bool List Arith.
From Verif Require Import NP NPReal Spec RealBase KeplerModel ConvModel Lists ConvCols ArraySpec
  AnomReal PropsAnomaly PropsArray PropsAnomalyR PropsSolver PropsDegrees CartReal PropsKep PropsCart PropsEqui PropsEquiCart
  PropsConverge PropsConvergeOrbit.
Import ListNotations.
Local Open Scope R_scope.

Definition scale (k : R) (x : num) : num := match x with Fin x => Fin (x * k) | a => a end.
Lemma radians_scale x : radians x = scale (PI / 180) x.
Proof.
  pose proof PI_RGT_0 as P. destruct x as [x| | |]; [|unfold radians; num..]; num; auto;
    rewrite !Fin_div by lra; assert (0 < PI / 180) by lra; cbn; unfold num_sign; destruct (Rlt_dec 0 (PI / 180)); auto; lra.
Qed.
Lemma degrees_scale x : degrees x = scale (180 / PI) x.
Proof.
  pose proof PI_RGT_0 as P. assert (0 < 180 / PI) by (apply Rdiv_lt_0_compat; lra). destruct x as [x| | |]; [|unfold degrees; num..]; num; auto;
    rewrite !Fin_div by lra; cbn; unfold num_sign; destruct (Rlt_dec 0 (180 / PI)); auto; lra.
Qed.
Lemma rad_deg (x : num) : radians (degrees x) = x.
Proof. pose proof PI_RGT_0. rewrite radians_scale, degrees_scale. destruct x; cbn [scale]; auto. f_equal. field. lra. Qed.
Lemma scale_add k (x y : num) : add (scale k x) (scale k y) = scale k (add x y).
Proof. destruct x, y; cbn; auto. f_equal. ring. Qed.
Lemma scale_sub k (x y : num) : sub (scale k x) (scale k y) = scale k (sub x y).
Proof. destruct x, y; cbn; auto. f_equal. ring. Qed.
Lemma scale_mod k (x : num) y : 0 < y -> 0 < k -> nmod (scale k x) (Fin (y * k)) = scale k (nmod x (Fin y)).
Proof.
  intros Hy Hk. destruct x; cbn; auto. destruct (Req_EM_T (y * k) 0); [nra|]. destruct (Req_EM_T y 0); [lra|].
  cbn. f_equal. now apply Rmod_scale.
Qed.
Lemma circ_rad : circ false = scale (PI / 180) (circ true).
Proof. unfold circ. num. cbn [scale]. f_equal. field. Qed.
Lemma circ_deg : circ true = scale (180 / PI) (circ false).
Proof. pose proof PI_RGT_0. unfold circ. num. cbn [scale]. f_equal. field. lra. Qed.
Lemma wrap_deg (x : num) : nmod (add (degrees x) (circ true)) (circ true) = degrees (nmod (add x (circ false)) (circ false)).
Proof.
  pose proof PI_RGT_0. assert (0 < 180 / PI) by (apply Rdiv_lt_0_compat; lra).
  rewrite !degrees_scale, circ_deg, scale_add. unfold circ. num. cbn [scale].
  now rewrite scale_mod by lra.
Qed.
Definition last6 (f : num -> num) (c : six num) : six num := mk6 (s0 c) (s1 c) (s2 c) (s3 c) (s4 c) (f (s5 c)).
Lemma deg_k2q_all (c : six num) : k2q_col true c = last6 degrees (k2q_col false (ang6 radians c)).
Proof.
  assert (D : forall x : num, x = degrees (radians x)) by (intros; now rewrite deg_rad).
  unfold k2q_col, last6, ang6. cbn [s0 s1 s2 s3 s4 s5]. cbv zeta.
  assert (A1 : radians (add (s3 c) (s4 c)) = add (radians (s3 c)) (radians (s4 c))) by (rewrite !radians_scale, scale_add; auto).
  assert (A2 : radians (mul (lit 0.5) (s2 c)) = mul (lit 0.5) (radians (s2 c))).
  { rewrite !radians_scale. destruct (s2 c) as [x| | |]; cbn [scale]; num; [cbn [scale]; f_equal; ring|..]; auto.
    - cbn. unfold num_sign. destruct (Rlt_dec 0 (/ 2)); [reflexivity|lra].
    - cbn. unfold num_sign. destruct (Rlt_dec 0 (/ 2)); [reflexivity|lra]. }
  rewrite A1, A2. f_equal. rewrite <- wrap_deg. rewrite !radians_scale, !scale_add, <- radians_scale, deg_rad. reflexivity.
Qed.
Lemma deg_q2k_all (c : six num) : q2k_col true c = ang6 degrees (q2k_col false (last6 radians c)).
Proof.
  unfold q2k_col, last6, ang6. cbn [s0 s1 s2 s3 s4 s5]. cbv zeta.
  assert (S : forall x y : num, sub (degrees x) (degrees y) = degrees (sub x y)) by (intros; now rewrite !degrees_scale, scale_sub).
  assert (Z : lit 0 = degrees (lit 0)). { rewrite degrees_scale. num. cbn [scale]. f_equal. ring. }
  f_equal.
  - rewrite <- wrap_deg. destruct (ltb _ _); [now rewrite S|now rewrite <- Z].
  - now rewrite <- wrap_deg.
  - rewrite <- wrap_deg. destruct (ltb _ _); rewrite <- S, deg_rad; reflexivity.
Qed.
(** kep_to_equi, equi_to_kep: any array of numbers, infinities and NaN included *)
Theorem C14_equinoctial_all : forall g (x : kinput num),
  kep_to_equi x true = rbind (kep_to_equi (on_angles radians x) false) (fun y => Ok (on_last degrees y))
  /\ equi_to_kep g x true = rbind (equi_to_kep g (on_last radians x) false) (fun y => Ok (on_angles degrees y)).
Proof.
  intros g x. destruct x as [| |s|c|l]; try (split; reflexivity).
  - unfold kep_to_equi, equi_to_kep, on_cols, on_angles, on_last.
    rewrite !kep_to_equi_cols_map, !equi_to_kep_cols_map. cbn [map rbind]. rewrite deg_k2q_all, deg_q2k_all. auto.
  - unfold kep_to_equi, equi_to_kep, on_cols, on_angles, on_last. cbn [rbind].
    rewrite !kep_to_equi_cols_map, !equi_to_kep_cols_map. rewrite !map_map. split; f_equal; f_equal; apply map_ext; intros k.
    + apply deg_k2q_all.
    + apply deg_q2k_all.
Qed.

Lemma angles_id (f h : num -> num) (x : kinput num) : (forall v, f (h v) = v) -> on_angles f (on_angles h x) = x.
Proof.
  intros E. assert (S : forall c, ang6 f (ang6 h c) = c) by (intros []; unfold ang6; cbn; now rewrite !E).
  destruct x; cbn; auto; f_equal; auto. rewrite map_map. rewrite <- (map_id l) at 2. apply map_ext. auto.
Qed.
(** what the two anomaly conversions do on the selected entries *)
Definition scaled (f fr : arg num -> arg num -> res (arg num)) : Prop :=
  forall n (d : list num) e, f (fresh [n] (map degrees d)) e = rbind (fr (fresh [n] d) e) (fun r => Ok (amap degrees r)).
Lemma amap_fresh (h : num -> num) n d : amap h (fresh [n] d) = fresh [n] (map h d).
Proof. unfold fresh, amap. now rewrite map_length. Qed.
Lemma mget_maph {A B} (h : A -> B) m l : mget m (map h l) = map h (mget m l).
Proof. revert l. induction m as [|[] m IH]; destruct l; cbn; auto; now rewrite IH. Qed.
Lemma mset_maph {A B} (h : A -> B) m vs l : mset m (map h vs) (map h l) = map h (mset m vs l).
Proof. revert vs l. induction m as [|[] m IH]; intros vs l; destruct l, vs; cbn; auto; f_equal; rewrite <- IH; reflexivity. Qed.
Lemma adata_amap (h : num -> num) r : adata (amap h r) = map h (adata r).
Proof. destruct r as [v|s m d]; auto. cbn. destruct s as [|? [|? ?]]; auto. destruct d as [|? [|? ?]]; auto. Qed.
Lemma set_nu_scaled f fr l : scaled f fr ->
  set_nu_masked f (map (ang6 degrees) l) = rbind (set_nu_masked fr l) (fun r => Ok (map (ang6 degrees) r)).
Proof.
  intros S.
  assert (E5 : map s5 (map (ang6 degrees) l) = map degrees (map s5 l)) by (rewrite !map_map; reflexivity).
  assert (E1 : map s1 (map (ang6 degrees) l) = map s1 l) by (rewrite !map_map; reflexivity).
  assert (Eg : map (fun c : six num => ltb e_lim (s1 c)) (map (ang6 degrees) l) = map (fun c : six num => ltb e_lim (s1 c)) l)
    by (rewrite !map_map; reflexivity).
  unfold set_nu_masked. rewrite E5, E1, Eg. set (eg := map _ l). clearbody eg. clear E5 E1 Eg.
  rewrite mget_maph, map_length, S.
  destruct (fr _ _) as [r|]; [|reflexivity]. cbn [rbind]. f_equal. rewrite adata_amap, mset_maph.
  generalize (mset eg (adata r) (map s5 l)). clear. induction l as [|c l IH]; intros [|y vs]; cbn; auto. now rewrite IH.
Qed.
Lemma on_cols_scaled f fr (k : kinput num) : scaled f fr ->
  on_cols (set_nu_masked f) (on_angles degrees k) = rbind (on_cols (set_nu_masked fr) k) (fun r => Ok (on_angles degrees r)).
Proof.
  intros S. destruct k as [| |s|c|l]; auto; cbn [on_angles on_cols].
  - change [ang6 degrees c] with (map (ang6 degrees) [c]). rewrite (set_nu_scaled f fr) by auto.
    destruct (set_nu_masked fr [c]) as [[|y [|? ?]]|]; reflexivity.
  - rewrite (set_nu_scaled f fr) by auto. destruct (set_nu_masked fr l); reflexivity.
Qed.
Lemma scaled_t2m g1 g2 : scaled (fun nu e => true_to_mean g1 g2 nu e true) (fun nu e => true_to_mean g1 g2 nu e false).
Proof.
  intros n d e. destruct (C14_anomalies g1 g2 default_options (fresh [n] (map degrees d)) e) as [_ [_ [_ [E _]]]]. rewrite E.
  rewrite amap_fresh, map_map. rewrite (map_ext _ (fun x => x)) by apply rad_deg. now rewrite map_id.
Qed.
Lemma scaled_m2t g1 o : scaled (fun M e => mean_to_true g1 M e o true) (fun M e => mean_to_true g1 M e o false).
Proof.
  intros n d e. destruct (C14_anomalies g1 g1 o (fresh [n] (map degrees d)) e) as [_ [_ [_ [_ E]]]]. rewrite E.
  rewrite amap_fresh, map_map. rewrite (map_ext _ (fun x => x)) by apply rad_deg. now rewrite map_id.
Qed.
(** cart_to_equi(x, degrees) is cart_to_equi(x) with lambda in degrees; equi_to_cart(q, degrees) is
    equi_to_cart of the elements with lambda in radians.  Every input. *)
Theorem C34_degrees : forall g g1 g2 (x : kinput num) mu o,
  snd (cart_to_equi g g1 g2 x mu true) = rbind (snd (cart_to_equi g g1 g2 x mu false)) (fun y => Ok (on_last degrees y))
  /\ equi_to_cart g g1 g2 x mu o true = equi_to_cart g g1 g2 (on_last radians x) mu o false.
Proof.
  intros g g1 g2 x mu o. split.
  - unfold cart_to_equi. destruct (C14_cart_kep g g1 x mu) as [E _].
    destruct (cart_to_kep g x mu true) as [c1 r1], (cart_to_kep g x mu false) as [c2 r2]. cbn [snd] in *. subst r1.
    destruct r2 as [k|]; [|reflexivity]. cbn [rbind].
    rewrite (on_cols_scaled _ _ k (scaled_t2m g1 g2)). destruct (on_cols _ k) as [k'|]; [|reflexivity]. cbn [rbind].
    destruct (C14_equinoctial_all g (on_angles degrees k')) as [E _]. rewrite E, angles_id by apply rad_deg. reflexivity.
  - unfold equi_to_cart. destruct (C14_equinoctial_all g x) as [_ E]. rewrite E.
    destruct (equi_to_kep g (on_last radians x) false) as [k|]; [|reflexivity]. cbn [rbind].
    rewrite (on_cols_scaled _ _ k (scaled_m2t g1 o)). destruct (on_cols _ k) as [k'|]; [|reflexivity]. cbn [rbind].
    destruct (C14_cart_kep g g2 (on_angles degrees k') mu) as [_ E']. rewrite E', angles_id by apply rad_deg. reflexivity.
Qed.
(** the round trip of C66_cart_equi_cart for both settings of the flag *)
Theorem C34_cart_equi_cart : forall deg mu x i o t, 0 < mu -> ang_mom x <> (0,0,0) -> energy mu x < 0 ->
  angle_between (ang_mom x) (0,0,1) i -> i = 0 \/ inclined_orbit i -> conv_opts o t ->
  let e := norm (ecc_vec mu x) in let a := mu / (- 2 * energy mu x) in
  e = 0 \/ eccentric_orbit e ->
  exists q x', (forall g g1 g2, snd (cart_to_equi g g1 g2 (KVec (fin6 x)) (MuS (Fin mu)) deg) = Ok (KVec (fin6 q)))
  /\ (forall g g1 g2, equi_to_cart g g1 g2 (KVec (fin6 q)) (MuS (Fin mu)) o deg = Ok (KVec (fin6 x')))
  /\ norm (minus3 (pos x') (pos x)) <= a * (t / (1 - e))
  /\ norm (minus3 (vel x') (vel x)) <= 3 * sqrt (mu / a) / ((1 - e) * (1 - e)) * (t / (1 - e)).
Proof.
  intros deg mu x i o t Hmu Hh Hen Hi Hin Ho e a He.
  destruct (C66_cart_equi_cart mu x i o t Hmu Hh Hen Hi Hin Ho He) as [q [x' [E1 [E2 E3]]]].
  destruct deg; [|exists q, x'; auto].
  exists (mk6 (s0 q) (s1 q) (s2 q) (s3 q) (s4 q) (s5 q * (180 / PI))), x'. split; [|split; [|exact E3]].
  - intros g g1 g2. destruct (C34_degrees g g1 g2 (KVec (fin6 x)) (MuS (Fin mu)) o) as [D _]. rewrite D, E1. cbn [rbind on_last].
    now rewrite degrees_scale.
  - intros g g1 g2. destruct (C34_degrees g g1 g2 (KVec (fin6 (mk6 (s0 q) (s1 q) (s2 q) (s3 q) (s4 q) (s5 q * (180 / PI))))) (MuS (Fin mu)) o) as [_ D].
    rewrite D. rewrite <- (E2 g g1 g2). f_equal. cbn [on_last]. f_equal. unfold fin6, map6. cbn [s0 s1 s2 s3 s4 s5]. f_equal.
    rewrite radians_scale. cbn [scale]. pose proof PI_RGT_0. f_equal. field. lra.
Qed.
(** a prograde planar ellipse, degrees, default options *)
Example C34_cart_equi_cart_example : exists q x', let x := mk6 1 0 0 0 (6/5) 0 in
  (forall g g1 g2, snd (cart_to_equi g g1 g2 (KVec (fin6 x)) (MuS (Fin 1)) true) = Ok (KVec (fin6 q)))
  /\ (forall g g1 g2, equi_to_cart g g1 g2 (KVec (fin6 q)) (MuS (Fin 1)) default_options true = Ok (KVec (fin6 x')))
  /\ norm (minus3 (pos x') (pos x)) <= 1 / (- 2 * energy 1 x) * (/ 1000000000000 / (1 - norm (ecc_vec 1 x))).
Proof.
  destruct C34_example as [H1 [H2 [H3 H4]]].
  destruct (C34_cart_equi_cart true 1 (mk6 1 0 0 0 (6/5) 0) 0 default_options (/ 1000000000000)) as [q [x' [A [B [C _]]]]]; auto; try lra.
  - exact conv_opts_default.
  - exists q, x'. auto.
Qed.
