(** * C69: in rounded arithmetic valid elements never give NaN or infinity *)
From Coq Require Import Reals QArith Qreals ZArith Lra Lia Psatz Bool List Permutation.
From Verif Require Import Lists NP NPReal RealBase NPFloat FloatBase KeplerModel ConvModel ConvCols ArraySpec PropsFloat PropsAnomaly LagTrig.
From Flocq Require Core Relative.
Import ListNotations.
Local Open Scope R_scope.

(** ** What is assumed of the mathematics library *)
(** sine and cosine stay in [-1,1] and the sine is right to three decimals; arctan stays in its range;
    the remainder of non-negative p-digit numbers is that of [fmod], which is exact *)
Record trig_ok (p : Z) (L : libm) : Prop := {
  tk_sin : forall x, -1 <= rnd p (l_sin L x) <= 1;
  tk_cos : forall x, -1 <= rnd p (l_cos L x) <= 1;
  tk_sin3 : forall x, Rabs (rnd p (l_sin L x) - sin x) <= / 1000;
  tk_atan : forall x, - rnd p (PI / 2) <= rnd p (l_atan L x) <= rnd p (PI / 2);
  tk_mod : forall x y, fmt p x -> fmt p y -> 0 <= x -> 0 < y -> 0 <= rnd p (l_mod L x y) < y }.
(** a finite value in the half-open interval *)
Definition inside (lo hi : R) (a : num) : Prop := exists x, a = Fin x /\ lo <= x < hi.
(** an elliptic eccentricity: a p-digit number in [0,1) *)
Definition ell_ecc (p : Z) (a : num) : Prop := exists e, a = Fin e /\ fmt p e /\ 0 <= e < 1.

Section Float.
Context (p : Z) (Hp : (12 < p)%Z) (L : libm) (HL : trig_ok p L).
#[local] Instance NPfe : NP num := NPf p L.
Notation rnd := (rnd p).
Local Lemma Hp1 : (1 < p)%Z. Proof. lia. Qed.

Lemma rnd_err x : Rabs (rnd x - x) <= / 4096 * Rabs x.
Proof.
  apply Rle_trans with (/ 2 * Core.Raux.bpow Core.Zaux.radix2 (- p + 1) * Rabs x).
  - exact (Relative.relative_error_N_FLX Core.Zaux.radix2 p ltac:(unfold Core.FLX.Prec_gt_0; lia) (fun x => negb (Z.even x)) x).
  - apply Rmult_le_compat_r; [apply Rabs_pos|].
    apply Rle_trans with (/ 2 * Core.Raux.bpow Core.Zaux.radix2 (-12)); [|cbn; lra].
    apply Rmult_le_compat_l; [lra|]. apply Core.Raux.bpow_le. lia.
Qed.
Lemma rnd_neg x : x < 0 -> rnd x < 0.
Proof.
  intros H. pose proof (rnd_neq p Hp1 x). pose proof (rnd_le p Hp1 x 0) as K. rewrite rnd_0 in K. lra.
Qed.
Lemma e_le e c : fmt p e -> 0 <= e -> -1 <= c <= 1 -> - e <= rnd (e * c) <= e.
Proof.
  intros Fe He Hc. split.
  - rewrite <- (rnd_fmt p (- e)) at 1 by now apply fmt_opp. apply rnd_le; [apply Hp1|nra].
  - rewrite <- (rnd_fmt p e) at 2 by auto. apply rnd_le; [apply Hp1|nra].
Qed.
Lemma f_sqrt x : 0 <= x -> nsqrt (Fin x) = Fin (rnd (sqrt x)).
Proof. intros H. cbn. destruct Rlt_dec; [lra|reflexivity]. Qed.
Lemma f_opp x : opp (Fin x) = Fin (- x). Proof. reflexivity. Qed.
Lemma f_abs x : nabs (Fin x) = Fin (Rabs x). Proof. reflexivity. Qed.
Lemma f_sin x : nsin (Fin x) = Fin (rnd (l_sin L x)). Proof. reflexivity. Qed.
Lemma f_cos x : ncos (Fin x) = Fin (rnd (l_cos L x)). Proof. reflexivity. Qed.
Lemma f_ltb x y : ltb (Fin x) (Fin y) = Rltb x y. Proof. reflexivity. Qed.
Lemma f_mod x y : y <> 0 -> nmod (Fin x) (Fin y) = Fin (rnd (l_mod L x y)).
Proof. intros. cbn. destruct Req_EM_T; easy. Qed.
Lemma fin_sin a : finite a -> finite (nsin a). Proof. intros [x ->]. apply fin_I. Qed.
Lemma fin_cos a : finite a -> finite (ncos a). Proof. intros [x ->]. apply fin_I. Qed.
Lemma fin_opp a : finite a -> finite (opp a). Proof. intros [x ->]. apply fin_I. Qed.
Lemma fin_pi : finite npi. Proof. apply fin_I. Qed.
Lemma fin_rad a : finite a -> finite (radians a).
Proof.
  intros H. unfold radians. apply fin_mul; [auto|]. change (lit 180) with (Fin (rnd (Q2R 180))). apply fin_div; [apply fin_pi|].
  apply rnd_neq; [apply Hp1|]. unfold Q2R. cbn. lra.
Qed.
Lemma fin_deg a : finite a -> finite (degrees a).
Proof.
  intros H. unfold degrees. apply fin_mul; [auto|]. apply (fin_div p L (lit 180) (rnd PI)); [apply fin_lit|].
  pose proof (rpi_pos p Hp1). lra.
Qed.
Ltac fins := repeat first [assumption | apply fin_I | apply fin_add | apply fin_sub | apply fin_mul | apply fin_lit
  | apply fin_sin | apply fin_cos | apply fin_opp | apply fin_pi | apply fin_div; [|lra]].

Lemma tp_pos : 0 < tp p. Proof. pose proof (tp_ge p Hp1). pose proof (rpi_pos p Hp1). lra. Qed.
Lemma fmt_tp : fmt p (tp p). Proof. apply fmt_rnd, Hp1. Qed.
Lemma wrap_ok x : - rnd PI <= x -> inside 0 (tp p) (wrap2pi (Fin x)).
Proof.
  intros Hx. pose proof tp_pos. pose proof (tp_ge p Hp1). unfold wrap2pi. change n2pi with (Fin (tp p)).
  change (add (Fin x) (Fin (tp p))) with (Fin (rnd (x + tp p))). rewrite f_mod by lra. eexists. split; [reflexivity|].
  apply (tk_mod p L HL); [apply fmt_rnd, Hp1|apply fmt_tp| |lra]. apply rnd_nonneg; [apply Hp1|lra].
Qed.
Lemma half_pi : rnd (2 * rnd (PI / 2)) = rnd PI.
Proof.
  assert (E : rnd (PI / 2) = rnd PI / 2).
  { unfold FloatBase.rnd, Core.Generic_fmt.round, Core.Generic_fmt.scaled_mantissa, Core.Generic_fmt.cexp, Core.Defs.F2R. cbn [Core.Defs.Fnum Core.Defs.Fexp].
    assert (M : Core.Raux.mag_val _ _ (Core.Raux.mag Core.Zaux.radix2 (PI / 2)) = (Core.Raux.mag_val _ _ (Core.Raux.mag Core.Zaux.radix2 PI) - 1)%Z).
    { replace (PI / 2) with (PI * Core.Raux.bpow Core.Zaux.radix2 (-1)) by (cbn; lra).
      rewrite Core.Raux.mag_mult_bpow by (pose proof PI_RGT_0; lra). ring. }
    rewrite M. clear M. unfold Core.FLX.FLX_exp.
    set (m := Core.Raux.mag_val _ _ (Core.Raux.mag Core.Zaux.radix2 PI)).
    replace (PI / 2 * Core.Raux.bpow Core.Zaux.radix2 (- (m - 1 - p))) with (PI * Core.Raux.bpow Core.Zaux.radix2 (- (m - p))).
    - replace (m - 1 - p)%Z with ((m - p) + -1)%Z by ring. rewrite Core.Raux.bpow_plus.
      change (Core.Raux.bpow Core.Zaux.radix2 (-1)) with (/ 2). lra.
    - replace (- (m - 1 - p))%Z with (- (m - p) + 1)%Z by ring. rewrite Core.Raux.bpow_plus.
      change (Core.Raux.bpow Core.Zaux.radix2 1) with 2. lra. }
  rewrite E. replace (2 * (rnd PI / 2)) with (rnd PI) by lra. apply rnd_fmt, fmt_rnd; apply Hp1.
Qed.

Lemma rnd_opp x : rnd (- x) = - rnd x.
Proof. apply Core.Round_NE.round_NE_opp. Qed.
Lemma twice_atan a : a <> NaN -> exists y, mul (lit 2) (narctan a) = Fin y /\ - rnd PI <= y <= rnd PI.
Proof.
  intros Ha. assert (K : exists t, narctan a = Fin t /\ - rnd (PI / 2) <= t <= rnd (PI / 2)).
  { destruct a as [x| | |]; [| | |easy].
    - eexists. split; [reflexivity|apply (tk_atan p L HL)].
    - exists (rnd (PI / 2)). split; [reflexivity|]. assert (0 <= rnd (PI / 2)) by (apply rnd_nonneg; [apply Hp1|pose proof PI_RGT_0; lra]). lra.
    - exists (rnd (- (PI / 2))). split; [reflexivity|]. rewrite rnd_opp.
      assert (0 <= rnd (PI / 2)) by (apply rnd_nonneg; [apply Hp1|pose proof PI_RGT_0; lra]). lra. }
  destruct K as [t [-> Ht]]. change (lit 2) with (Fin (rnd (Q2R 2))). rewrite r2 by apply Hp1.
  exists (rnd (2 * t)). split; [reflexivity|]. rewrite <- half_pi, <- rnd_opp.
  split; apply rnd_le; try apply Hp1; lra.
Qed.
Lemma f_quo x y : 0 < x -> 0 < y -> exists z, nsqrt (div (Fin x) (Fin y)) = Fin z /\ 0 < z.
Proof.
  intros Hx Hy. assert (Q : 0 < x / y) by (apply Rdiv_lt_0_compat; lra).
  assert (D : div (Fin x) (Fin y) = Fin (rnd (x / y))) by (apply f_div; lra). rewrite D.
  pose proof (rnd_pos p Hp1 _ Q). rewrite f_sqrt by lra.
  eexists. split; [reflexivity|]. apply rnd_pos; [apply Hp1|]. now apply sqrt_lt_R0.
Qed.
Lemma tan_scaled s x : 0 < s -> mul (Fin s) (ntan (Fin x)) <> NaN.
Proof.
  intros Hs. cbn. destruct Req_EM_T; cbn; [|discriminate]. unfold num_sign. destruct Rlt_dec; [discriminate|lra].
Qed.
Lemma em e : fmt p e -> e < 1 -> 0 < rnd (1 - e). Proof. intros. apply rnd_pos; [apply Hp1|lra]. Qed.
Lemma ep e : 0 <= e -> 0 < rnd (1 + e). Proof. intros. apply rnd_pos; [apply Hp1|lra]. Qed.
Lemma l1 : lit 1 = Fin 1. Proof. apply f_1, Hp1. Qed.
Lemma t2e_ok a e : finite a -> ell_ecc p e -> inside 0 (tp p) (wrap2pi (by_cases t2e_hyp t2e_per t2e_eli a e)).
Proof.
  intros [x ->] (v & -> & Fv & Hv). unfold by_cases. rewrite l1. 
  assert (B1 : ltb (Fin 1) (Fin v) = false) by (rewrite f_ltb; unfold Rltb; destruct Rlt_dec; [lra|auto]).
  assert (B2 : eqb (Fin v) (Fin 1) = false) by (cbn; unfold Reqb; destruct Req_EM_T; [lra|auto]).
  rewrite B1, B2. unfold t2e_eli. rewrite l1.
  destruct (f_quo (rnd (1 - v)) (rnd (1 + v))) as [s [Es Hs]]; [apply em; lra || auto|apply ep; lra|].
  change (sub (Fin 1) (Fin v)) with (Fin (rnd (1 - v))). change (add (Fin 1) (Fin v)) with (Fin (rnd (1 + v))). rewrite Es.
  change (mul (Fin x) (lit 0.5)) with (Fin (rnd (x * rnd (Q2R 0.5)))).
  destruct (twice_atan (mul (Fin s) (ntan (Fin (rnd (x * rnd (Q2R 0.5))))))) as [y [Ey Hy]]; [now apply tan_scaled|].
  rewrite Ey. apply wrap_ok. lra.
Qed.
Lemma e2t_ok a e : finite a -> ell_ecc p e -> inside 0 (tp p) (wrap2pi (by_cases e2t_hyp e2t_per e2t_eli a e)).
Proof.
  intros [x ->] (v & -> & Fv & Hv). unfold by_cases. rewrite l1. 
  assert (B1 : ltb (Fin 1) (Fin v) = false) by (rewrite f_ltb; unfold Rltb; destruct Rlt_dec; [lra|auto]).
  assert (B2 : eqb (Fin v) (Fin 1) = false) by (cbn; unfold Reqb; destruct Req_EM_T; [lra|auto]).
  rewrite B1, B2. unfold e2t_eli. rewrite l1.
  destruct (f_quo (rnd (1 + v)) (rnd (1 - v))) as [s [Es Hs]]; [apply ep; lra|apply em; lra || auto|].
  change (sub (Fin 1) (Fin v)) with (Fin (rnd (1 - v))). change (add (Fin 1) (Fin v)) with (Fin (rnd (1 + v))). rewrite Es.
  change (mul (Fin x) (lit 0.5)) with (Fin (rnd (x * rnd (Q2R 0.5)))).
  destruct (twice_atan (mul (Fin s) (ntan (Fin (rnd (x * rnd (Q2R 0.5))))))) as [y [Ey Hy]]; [now apply tan_scaled|].
  rewrite Ey. apply wrap_ok. lra.
Qed.
Lemma e2m_ok a e : finite a -> finite e -> finite (by_cases e2m_hyp e2m_per e2m_eli a e).
Proof.
  intros [x ->] [v ->]. unfold by_cases. destruct (ltb _ _); [apply fin_I|]. destruct (eqb _ _); [|apply fin_I].
  unfold e2m_per, cube. change (lit 3) with (Fin (rnd (Q2R 3))).
  apply fin_add; [apply fin_I|]. apply fin_div; [fins|]. apply rnd_neq; [apply Hp1|]. unfold Q2R. cbn. lra.
Qed.

(** ** The solver *)
Lemma lag_f_fin M e E : finite M -> finite e -> finite E -> finite (lag_f M e E).
Proof. intros [m ->] [v ->] [x ->]. unfold lag_f. destruct (ltb _ _); apply fin_I. Qed.
Lemma lag_step_fin M e o E f : finite M -> ell_ecc p e -> finite (degree o) -> finite E -> finite f ->
  finite (lag_step e o E f).
Proof.
  intros [m ->] (v & -> & Fv & Hv) [n Hn] [x ->] [y ->]. unfold lag_step, lag_fp, lag_fpp. rewrite Hn, l1.
  assert (B1 : ltb (Fin 1) (Fin v) = false) by (rewrite f_ltb; unfold Rltb; destruct Rlt_dec; [lra|auto]).
  rewrite B1. rewrite f_cos.
  change (mul (Fin v) (Fin (rnd (l_cos L x)))) with (Fin (rnd (v * rnd (l_cos L x)))).
  pose proof (e_le v _ Fv (proj1 Hv) (tk_cos p L HL x)) as [_ Hc].
  set (c := rnd (v * rnd (l_cos L x))) in *. change (sub (Fin c) (Fin 1)) with (Fin (rnd (c - 1))).
  assert (Hf : rnd (c - 1) < 0) by (apply rnd_neg; lra). set (f' := rnd (c - 1)) in *.
  assert (R : exists z, nabs (sub (mul (sq (sub (Fin n) (Fin 1))) (sq (Fin f')))
      (mul (mul (mul (Fin n) (sub (Fin n) (Fin 1))) (Fin y)) (mul (opp (Fin v)) (nsin (Fin x))))) = Fin z /\ 0 <= z).
  { eexists. split; [reflexivity|apply Rabs_pos]. }
  destruct R as [z [-> Hz]]. rewrite f_sqrt by auto.
  assert (Hs : 0 <= rnd (sqrt z)) by (apply rnd_nonneg; [apply Hp1|apply sqrt_pos]). set (s := rnd (sqrt z)) in *.
  change (add (Fin f') (Fin s)) with (Fin (rnd (f' + s))). change (sub (Fin f') (Fin s)) with (Fin (rnd (f' - s))).
  assert (Hm : rnd (f' - s) < 0) by (apply rnd_neg; lra).
  rewrite !f_abs, f_ltb. unfold Rltb. destruct Rlt_dec as [K|K].
  - apply fin_sub; [apply fin_I|]. apply fin_div; [fins|]. intros E. rewrite E, Rabs_R0 in K. pose proof (Rabs_pos (rnd (f' - s))). lra.
  - apply fin_sub; [apply fin_I|]. apply fin_div; [fins|]. lra.
Qed.
Lemma some_fst {A B} (a c : A) (b d : B) : Some (a, b) = Some (c, d) -> a = c. Proof. congruence. Qed.
Lemma lag_loop_fin M e o : finite M -> ell_ecc p e -> finite (degree o) -> forall fuel E f it E' it',
  finite E -> finite f -> lag_loop M e o fuel E f it = Some (E', it') -> finite E'.
Proof.
  intros HM He Hn. assert (Fe : finite e) by (destruct He as (v & -> & _); apply fin_I).
  induction fuel as [|fuel IH]; intros E f it E' it' HE Hf; cbn [lag_loop].
  - destruct (leb _ _); [discriminate|]. now intros [= <- _].
  - destruct (leb _ _); [|now intros [= <- _]].
    assert (K : finite (lag_step e o E f)) by (apply (lag_step_fin M); auto).
    destruct (Z.geb (it + 1) (max_iter o)); [intros Q; rewrite <- (some_fst _ _ _ _ Q); exact K|]. apply IH; [exact K|now apply lag_f_fin].
Qed.
(** the denominator of the starting guess, [1 - sin (M + e) + sin M], stays away from zero for every [M] *)
Lemma sin_half : sin (505 / 1000) <= 485 / 1000.
Proof. pose proof (LagTrig.sin_le5 (505 / 1000)). lra. Qed.
Lemma sin_diff m e : 0 <= e <= 1 + / 1000 -> sin (m + e) - sin m <= 97 / 100.
Proof.
  intros He. rewrite form4. replace ((m + e - m) / 2) with (e / 2) by field.
  pose proof (COS_bound ((m + e + m) / 2)) as C. set (c := cos _) in *.
  assert (S : 0 <= sin (e / 2) <= sin (505 / 1000)).
  { split; [apply sin_ge_0; pose proof PI2_3_2; lra|].
    apply sin_incr_1; pose proof PI2_3_2; lra. }
  pose proof sin_half. nra.
Qed.

(** adding an eccentricity to a p-digit number rounds to at most a little more than 1 *)
Lemma fmt_large x : fmt p x -> Core.Raux.bpow Core.Zaux.radix2 p <= Rabs x -> exists n, x = IZR n.
Proof.
  intros Fx Hx. unfold fmt, Core.Generic_fmt.generic_format in Fx. rewrite Fx. unfold Core.Defs.F2R. cbn [Core.Defs.Fnum Core.Defs.Fexp].
  set (m := Core.Raux.Ztrunc _). set (k := Core.Generic_fmt.cexp _ _ _).
  assert (Hk : (0 <= k)%Z).
  { unfold k, Core.Generic_fmt.cexp, Core.FLX.FLX_exp.
    assert (p < Core.Raux.mag_val _ _ (Core.Raux.mag Core.Zaux.radix2 x))%Z by now apply Core.Raux.mag_gt_bpow. lia. }
  exists (m * 2 ^ k)%Z. rewrite mult_IZR. f_equal. change 2%Z with (Core.Zaux.radix_val Core.Zaux.radix2). now rewrite Core.Raux.IZR_Zpower.
Qed.
Lemma rnd_nearest x g : fmt p g -> Rabs (rnd x - x) <= Rabs (g - x).
Proof.
  assert (PG : Core.FLX.Prec_gt_0 p) by (unfold Core.FLX.Prec_gt_0; lia).
  intros Hg. apply (Core.Generic_fmt.round_N_pt Core.Zaux.radix2 (Core.FLX.FLX_exp p) (fun x => negb (Z.even x)) x). exact Hg.
Qed.
Lemma add_ecc M e : fmt p M -> M <= 1 -> 0 <= e < 1 -> M <= rnd (M + e) <= M + 1 + / 1000.
Proof.
  intros FM HM He. split.
  { rewrite <- (rnd_fmt p M) at 1 by auto. apply rnd_le; [apply Hp1|lra]. }
  destruct (Rle_dec M (-1)) as [Hl|Hl].
  2:{ pose proof (rnd_err (M + e)) as E. apply Core.Raux.Rabs_le_inv in E. assert (Rabs (M + e) <= 2) by (apply Rabs_le; lra). lra. }
  apply Rle_trans with (M + 1); [|lra].
  assert (Q : fmt p (M + 1) -> rnd (M + e) <= M + 1).
  { intros K. rewrite <- (rnd_fmt p (M + 1)) by auto. apply rnd_le; [apply Hp1|lra]. }
  pose proof FM as G. apply Core.FLX.FLX_format_generic in G; [|unfold Core.FLX.Prec_gt_0; lia].
  destruct G as [[m k] G1 G2]. cbn [Core.Defs.Fnum] in G2. unfold Core.Defs.F2R in G1. cbn [Core.Defs.Fnum Core.Defs.Fexp] in G1.
  change (Z.pow (Core.Zaux.radix_val Core.Zaux.radix2) p) with (2 ^ p)%Z in G2.
  destruct (Z_le_dec k 0) as [Hk|Hk].
  - apply Q. 
    assert (P1 : IZR (2 ^ (- k)) * Core.Raux.bpow Core.Zaux.radix2 k = 1).
    { change 2%Z with (Core.Zaux.radix_val Core.Zaux.radix2). rewrite Core.Raux.IZR_Zpower by lia. rewrite <- Core.Raux.bpow_plus.
      replace (- k + k)%Z with 0%Z by ring. reflexivity. }
    replace (M + 1) with (IZR (m + 2 ^ (- k)) * Core.Raux.bpow Core.Zaux.radix2 k) by (rewrite plus_IZR; lra).
    apply fmt_scale.
    assert (B : (m + 2 ^ (- k) <= 0)%Z).
    { apply le_IZR. rewrite plus_IZR. apply Rmult_le_reg_r with (Core.Raux.bpow Core.Zaux.radix2 k); [apply Core.Raux.bpow_gt_0|].
      rewrite Rmult_plus_distr_r, P1. lra. }
    pose proof (Z.pow_nonneg 2 (- k)). lia.
  - set (B := Core.Raux.bpow Core.Zaux.radix2 p). assert (FB : fmt p (- B)).
    { apply fmt_opp. unfold B. rewrite <- (Rmult_1_l (Core.Raux.bpow _ _)). apply (fmt_scale p 1). change (Z.abs 1) with 1%Z.
      apply Z.pow_gt_1; lia. }
    assert (IM : exists n, M = IZR n).
    { exists (m * 2 ^ k)%Z. rewrite mult_IZR, G1. f_equal. change 2%Z with (Core.Zaux.radix_val Core.Zaux.radix2).
      symmetry. apply Core.Raux.IZR_Zpower. lia. }
    destruct IM as [n Hn].
    assert (HB : IZR (2 ^ p) = B). { change 2%Z with (Core.Zaux.radix_val Core.Zaux.radix2). apply Core.Raux.IZR_Zpower. lia. }
    destruct (Z_le_dec (- 2 ^ p) n) as [Hs|Hs].
    + apply Q. rewrite Hn, <- plus_IZR. apply fmt_IZR.
      assert (n <= -1)%Z by (apply le_IZR; lra). lia.
    + assert (HM2 : M <= - B - 1).
      { rewrite Hn, <- HB. replace (- IZR (2 ^ p) - 1) with (IZR (- 2 ^ p - 1)) by (rewrite minus_IZR, opp_IZR; reflexivity).
        apply IZR_le. lia. }
      assert (HR : rnd (M + e) <= - B).
      { rewrite <- (rnd_fmt p (- B)) by auto. apply rnd_le; [apply Hp1|lra]. }
      assert (BP : 0 < B) by apply Core.Raux.bpow_gt_0.
      destruct (fmt_large (rnd (M + e))) as [n' Hn']; [apply fmt_rnd, Hp1|rewrite Rabs_left by lra; fold B; lra|].
      pose proof (rnd_nearest (M + e) M FM) as N. rewrite (Rabs_left1 (M - (M + e))) in N by lra. apply Core.Raux.Rabs_le_inv in N.
      rewrite Hn' in N |- *. rewrite Hn in N |- *.
      rewrite <- plus_IZR. apply IZR_le. assert (IZR n' < IZR (n + 2)) as K by (rewrite plus_IZR; lra). apply lt_IZR in K. lia.
Qed.
Lemma guess_fin M e : (exists m, M = Fin m /\ fmt p m) -> ell_ecc p e -> finite (get_kepler_guess M e).
Proof.
  intros (m & -> & Fm) (v & -> & Fv & Hv). unfold get_kepler_guess.
  set (M' := if ltb npi (Fin m) then sub n2pi (Fin m) else Fin m).
  assert (HM : exists m', M' = Fin m' /\ fmt p m').
  { unfold M'. destruct (ltb _ _); eexists; (split; [reflexivity|]); [apply fmt_rnd, Hp1|exact Fm]. }
  clearbody M'. destruct HM as (m' & -> & Fm').
  assert (K : finite (if ltb (Fin m') (lit 0.25) then add (Fin m') (div (mul (Fin v) (nsin (Fin m'))) (add (sub (lit 1) (nsin (add (Fin m') (Fin v)))) (nsin (Fin m'))))
      else if ltb (Fin m') (lit 2) then add (Fin m') (Fin v) else add (Fin m') (div (mul (Fin v) (sub npi (Fin m'))) (add (lit 1) (Fin v))))).
  { destruct (ltb (Fin m') (lit 0.25)) eqn:T.
    - assert (Hm : m' <= 1).
      { change (lit 0.25) with (Fin (rnd (Q2R 0.25))) in T. rewrite f_ltb in T. unfold Rltb in T. destruct Rlt_dec as [K|]; [|easy].
        assert (rnd (Q2R 0.25) <= rnd 1) by (apply rnd_le; [apply Hp1|unfold Q2R; cbn; lra]). rewrite rnd_1 in * by apply Hp1. lra. }
      pose proof (add_ecc m' v Fm' Hm Hv) as A. rewrite l1, !f_sin.
      change (add (Fin m') (Fin v)) with (Fin (rnd (m' + v))). rewrite f_sin. set (w := rnd (m' + v)) in *.
      pose proof (tk_sin3 p L HL w) as S1. pose proof (tk_sin3 p L HL m') as S0. pose proof (tk_sin p L HL w) as B1.
      set (s1 := rnd (l_sin L w)) in *. set (s0 := rnd (l_sin L m')) in *.
      pose proof (sin_diff m' (w - m') ltac:(lra)) as D. replace (m' + (w - m')) with w in D by ring.
      apply Core.Raux.Rabs_le_inv in S1, S0.
      change (sub (Fin 1) (Fin s1)) with (Fin (rnd (1 - s1))). change (add (Fin (rnd (1 - s1))) (Fin s0)) with (Fin (rnd (rnd (1 - s1) + s0))).
      apply fin_add; [apply fin_I|]. apply fin_div; [fins|]. apply rnd_neq; [apply Hp1|].
      pose proof (rnd_err (1 - s1)) as E. rewrite (Rabs_pos_eq (1 - s1)) in E by lra. apply Core.Raux.Rabs_le_inv in E. lra.
    - destruct (ltb (Fin m') (lit 2)); [apply fin_I|]. rewrite l1. change (add (Fin 1) (Fin v)) with (Fin (rnd (1 + v))).
      apply fin_add; [apply fin_I|]. apply fin_div; [fins|]. pose proof (ep v ltac:(lra)). lra. }
  destruct (ltb npi (Fin m)); [apply fin_sub; [apply fin_I|exact K]|exact K].
Qed.

Lemma m2e_el_ok o M e : (exists m, M = Fin m /\ fmt p m) -> ell_ecc p e -> finite (degree o) -> finite (m2e_el o M e).
Proof.
  intros HM He Hn. pose proof (guess_fin M e HM He) as G. pose proof He as (v & Ev & Fv & Hv). unfold m2e_el.
  assert (B1 : ltb (lit 1) e = false) by (rewrite l1, Ev, f_ltb; unfold Rltb; destruct Rlt_dec; [lra|auto]).
  assert (B2 : eqb e (lit 1) = false) by (rewrite l1, Ev; cbn; unfold Reqb; destruct Req_EM_T; [lra|auto]).
  rewrite B1, B2. assert (FM : finite M) by (destruct HM as (m & -> & _); apply fin_I).
  assert (Fe : finite e) by (rewrite Ev; apply fin_I).
  unfold laguerre_solve_kepler. destruct (C18_laguerre_terminates (get_kepler_guess M e) M e o) as [k [K _]]. rewrite K. cbn [fst].
  apply (lag_loop_fin M e o FM He Hn (lag_fuel o) (get_kepler_guess M e) (lag_f M e (get_kepler_guess M e)) 0%Z _ (Z.of_nat k) G); [|exact K].
  now apply lag_f_fin.
Qed.

(** ** One column of kep_to_cart *)
Definition denom (e nu : R) : R := rnd (1 + rnd (e * rnd (l_cos L nu))).
Lemma denom_pos e nu : fmt p e -> 0 <= e < 1 -> 0 < denom e nu.
Proof.
  intros Fe He. pose proof (e_le e _ Fe (proj1 He) (tk_cos p L HL nu)). apply rnd_pos; [apply Hp1|lra].
Qed.
Lemma h_pos x : 0 < x -> exists h, nsqrt (Fin x) = Fin h /\ 0 < h.
Proof.
  intros H. rewrite f_sqrt by lra. eexists. split; [reflexivity|]. apply rnd_pos; [apply Hp1|now apply sqrt_lt_R0].
Qed.
Lemma rnd_mpos x y : 0 < x -> 0 < y -> 0 < rnd (x * y).
Proof. intros. apply rnd_pos; [apply Hp1|nra]. Qed.
Lemma k2c_fin a e i om Om nu mu : 0 < a -> fmt p e -> 0 <= e -> 0 < mu -> 0 < denom e nu ->
  let o := k2c_col (mk6 (Fin (if Rlt_dec 1 e then - a else a)) (Fin e) (Fin i) (Fin om) (Fin Om) (Fin nu)) (Fin mu) in
  finite (s0 o) /\ finite (s1 o) /\ finite (s2 o) /\ finite (s3 o) /\ finite (s4 o) /\ finite (s5 o).
Proof.
  intros Ha Fe He Hmu Hd. unfold k2c_col. cbn [s0 s1 s2 s3 s4 s5].
  set (h := if eqb (Fin e) (lit 1) then _ else _).
  assert (Hh : exists x, h = Fin x /\ 0 < x).
  { unfold h. rewrite l1. destruct (eqb (Fin e) (Fin 1)) eqn:B.
    - assert (e = 1) as -> by (revert B; cbn; unfold Reqb; destruct Req_EM_T; easy).
      destruct (Rlt_dec 1 1); [lra|]. unfold parabolic_total_angular_momentum.
      change (lit 2) with (Fin (rnd (Q2R 2))). rewrite r2 by apply Hp1. apply h_pos.
      apply rnd_mpos; [apply rnd_mpos; lra|lra].
    - assert (Hne : e <> 1) by (intros ->; revert B; cbn; unfold Reqb; destruct Req_EM_T; easy).
      unfold orbit_total_angular_momentum, sq. rewrite l1.
      destruct (Rlt_dec 1 e) as [G|G].
      + assert (E1 : e <= rnd (e * e)) by (rewrite <- (rnd_fmt p e Fe) at 1; apply rnd_le; [apply Hp1|nra]).
        assert (N : rnd (1 - rnd (e * e)) < 0) by (apply rnd_neg; lra).
        assert (N2 : rnd (mu * - a) < 0) by (apply rnd_neg; nra).
        apply (h_pos (rnd (rnd (mu * - a) * rnd (1 - rnd (e * e))))). apply rnd_pos; [apply Hp1|nra].
      + assert (E1 : rnd (e * e) <= e) by (rewrite <- (rnd_fmt p e Fe) at 3; apply rnd_le; [apply Hp1|nra]).
        assert (N : 0 < rnd (1 - rnd (e * e))) by (apply rnd_pos; [apply Hp1|lra]).
        apply (h_pos (rnd (rnd (mu * a) * rnd (1 - rnd (e * e))))). apply rnd_mpos; [apply rnd_mpos; lra|lra]. }
  clearbody h. destruct Hh as [x [-> Hx]].
  assert (Hr : finite (orbital_distance (Fin x) (Fin mu) (Fin e) (Fin nu) false)).
  { unfold orbital_distance, sq. rewrite l1, f_cos. apply (fin_div p L _ (rnd (mu * denom e nu))); [fins|].
    pose proof (rnd_mpos mu (denom e nu) Hmu Hd). lra. }
  assert (Hv : finite (div (Fin mu) (Fin x))) by (apply fin_div; [fins|lra]).
  unfold euler_rotation_matrix, m00, m01, m10, m11, m20, m21. cbn [fst snd]. rewrite !f_sin, !f_cos.
  repeat split; fins.
Qed.
End Float.

(** ** Statements for the API *)
Definition all (P : num -> Prop) (x : arg num) : Prop := forall v, In v (entries x) -> P v.
(** the memory layout of an array visits every entry once *)
Definition layout (x : arg num) : Prop :=
  match x with Sc _ => True | Arr _ m d => Permutation m (seq 0 (length d)) end.
Definition float_num (p : Z) (a : num) : Prop := exists x, a = Fin x /\ fmt p x.
(** a call returns an array (or float) of the joint shape of its arguments whose entries satisfy [P] *)
Definition returns (P : num -> Prop) (x e : arg num) (r : res (arg num)) : Prop :=
  exists y, r = Ok y /\ shape_of y = joint_shape x e /\ length (entries y) = size (joint_shape x e) /\ all P y.

Lemma float_fin p a : float_num p a -> finite a. Proof. intros (x & -> & _). now exists x. Qed.
Lemma inside_fin lo hi a : inside lo hi a -> finite a. Proof. intros (x & -> & _). now exists x. Qed.
Lemma ell_fin p a : ell_ecc p a -> finite a. Proof. intros (x & -> & _). now exists x. Qed.
Lemma elementwise_returns (P : num -> Prop) f (x e : arg num) : wf_arg x -> wf_arg e -> compatible x e -> elementwise f x e ->
  (forall a b, In a (entries x) -> In b (entries e) -> exists y, f (Sc a) (Sc b) = Ok (Sc y) /\ P y) ->
  returns P x e (f x e).
Proof.
  intros Hx He Hc (r & E1 & E2 & E3 & E4) H. exists r. split; [exact E1|]. split; [exact E2|]. split; [exact E3|].
  intros v Hv. apply In_nth_error in Hv as [j Hj].
  assert (Lj : (j < size (joint_shape x e))%nat) by (rewrite <- E3; apply nth_error_Some; congruence).
  assert (A : exists a, at_ x j = Some a /\ In a (entries x)).
  { destruct x as [a|s m d]; [exists a; cbn; auto|]. cbn [wf_arg joint_shape is_arr shape_of at_ entries] in *. rewrite <- Hx in Lj.
    destruct (nth_error d j) eqn:N; [|apply nth_error_None in N; lia]. exists n. split; [auto|eapply nth_error_In; eauto]. }
  assert (B : exists b, at_ e j = Some b /\ In b (entries e)).
  { destruct e as [b|s m d]; [exists b; cbn; auto|]. 
    assert (Lj2 : (j < length d)%nat).
    { cbn [wf_arg] in He. rewrite He. destruct x as [|s' m' d']; cbn [joint_shape is_arr shape_of compatible] in *; [exact Lj|now subst s']. }
    cbn. destruct (nth_error d j) eqn:N; [|apply nth_error_None in N; lia]. exists n. split; [auto|eapply nth_error_In; eauto]. }
  destruct A as [a [A1 A2]], B as [b [B1 B2]].
  destruct (E4 j a b A1 B1 Lj) as [y [Y1 Y2]]. destruct (H a b A2 B2) as [z [Z1 Z2]]. congruence.
Qed.

Section API.
Context (p : Z) (Hp : (12 < p)%Z) (L : libm) (HL : trig_ok p L).
#[local] Instance NPa : NP num := NP_rd (rnd p) L.
Lemma api_deg a : finite a -> finite (degrees a). Proof. apply (fin_deg p Hp L). Qed.
Lemma api_rad a : finite a -> float_num p (radians a).
Proof.
  intros H. assert (K : finite (radians a)) by (now apply (fin_rad p Hp L)).
  destruct H as [x ->]. unfold radians in *. destruct (div npi (lit 180)) eqn:E.
  - eexists. split; [reflexivity|]. apply fmt_rnd. lia.
  - destruct K as [y K]. exfalso. revert K. cbn. unfold num_sign. destruct Rlt_dec; [easy|]. destruct Rlt_dec; easy.
  - destruct K as [y K]. exfalso. revert K. cbn. unfold num_sign. destruct Rlt_dec; [easy|]. destruct Rlt_dec; easy.
  - destruct K as [y K]. easy.
Qed.
Lemma api_ordered e : ell_ecc p e -> ordered1 e.
Proof.
  intros (v & -> & Fv & Hv). unfold ordered1.
  assert (K1 : lit 1 = Fin 1) by (apply (f_1 p ltac:(lia) L)). rewrite K1.
  cbn. unfold Rltb, Reqb. destruct (Rlt_dec 1 v); [lra|]. destruct (Req_EM_T v 1); [lra|]. destruct (Rlt_dec v 1); [exact I|lra].
Qed.
Definition okr (deg : bool) : num -> Prop := if deg then finite else inside 0 (rnd p (rnd p 2 * rnd p PI)).
Lemma api_tp : tp p = rnd p (rnd p 2 * rnd p PI).
Proof. unfold tp. do 3 f_equal. unfold Q2R. cbn. lra. Qed.
Lemma okr_out deg y : inside 0 (rnd p (rnd p 2 * rnd p PI)) y -> okr deg (if deg then degrees y else y).
Proof. intros H. destruct deg; [|exact H]. apply api_deg, (inside_fin _ _ _ H). Qed.
Lemma fin_out (deg : bool) y : finite y -> finite (if deg then degrees y else y).
Proof. destruct deg; auto. apply api_deg. Qed.
Lemma fin_in (deg : bool) y : float_num p y -> float_num p (if deg then radians y else y).
Proof. destruct deg; auto. intros H. apply api_rad, (float_fin _ _ H). Qed.

Lemma sc_t2e g a e (deg : bool) : float_num p a -> ell_ecc p e ->
  exists y, true_to_eccentric g (Sc a) (Sc e) deg = Ok (Sc (if deg then degrees y else y)) /\ inside 0 (rnd p (rnd p 2 * rnd p PI)) y.
Proof.
  intros Ha He. eexists (wrap2pi (by_cases t2e_hyp t2e_per t2e_eli (if deg then radians a else a) e)).
  split; [destruct deg; reflexivity|]. rewrite <- api_tp. apply (t2e_ok p Hp L HL); [|exact He].
  apply (float_fin p), fin_in, Ha.
Qed.
Lemma sc_e2t g a e (deg : bool) : finite a -> ell_ecc p e ->
  exists y, eccentric_to_true g (Sc a) (Sc e) deg = Ok (Sc (if deg then degrees y else y)) /\ inside 0 (rnd p (rnd p 2 * rnd p PI)) y.
Proof.
  intros Ha He. eexists (wrap2pi (by_cases e2t_hyp e2t_per e2t_eli (if deg then radians a else a) e)).
  split; [destruct deg; reflexivity|]. rewrite <- api_tp. apply (e2t_ok p Hp L HL); [|exact He].
  destruct deg; [|exact Ha]. apply (float_fin p), api_rad, Ha.
Qed.
Lemma sc_e2m g a e (deg : bool) : finite a -> ell_ecc p e ->
  exists y, eccentric_to_mean g (Sc a) (Sc e) deg = Ok (Sc (if deg then degrees y else y)) /\ finite y.
Proof.
  intros Ha He. eexists (by_cases e2m_hyp e2m_per e2m_eli (if deg then radians a else a) e).
  split; [destruct deg; reflexivity|]. apply (e2m_ok p Hp L); [|now apply (ell_fin p)].
  destruct deg; [|exact Ha]. apply (float_fin p), api_rad, Ha.
Qed.

(** the entries of the broadcast lists *)
Lemma dat_in (x : arg num) n v : In v (dat x n) -> In v (entries x).
Proof. destruct x; cbn; auto. intros H. apply repeat_spec in H. auto. Qed.
Lemma mem_in (x : arg num) n v : layout x -> length (dat x n) = n -> In v (nditer nan (mem_of x n) (dat x n)) -> In v (entries x).
Proof.
  intros Hl Hd Hv. apply (dat_in _ n). unfold nditer in Hv. apply in_map_iff in Hv as [i [<- Hi]]. apply nth_In.
  destruct x as [a|s m d]; cbn in *.
  - apply in_seq in Hi. lia.
  - apply (Permutation_in _ Hl), in_seq in Hi. lia.
Qed.
Lemma mem_len (x : arg num) n : layout x -> length (dat x n) = n -> length (mem_of x n) = n.
Proof.
  destruct x as [a|s m d]; cbn; intros H1 H2; [apply seq_length|].
  rewrite (Permutation_length H1), seq_length. exact H2.
Qed.
Lemma map2_in {A B C} (f : A -> B -> C) : forall l l' y, In y (map2 f l l') -> exists a b, In a l /\ In b l' /\ y = f a b.
Proof.
  induction l as [|a l IH]; destruct l' as [|b l']; cbn; intros y Hy; try easy.
  destruct Hy as [Hy|Hy]; [exists a, b; auto|]. destruct (IH l' y Hy) as (a' & b' & ? & ? & ?). exists a', b'. auto.
Qed.
Lemma amap_layout h (x : arg num) : layout x -> layout (amap h x).
Proof.
  destruct x as [v|s m d]; cbn; auto. destruct s as [|n [|n' s]]; [destruct d as [|v [|]]| |]; cbn; rewrite ?map_length; auto.
Qed.
Lemma in_rad_layout deg (x : arg num) : layout x -> layout (in_rad deg x).
Proof. destruct deg; cbn; auto. apply amap_layout. Qed.
Lemma in_rad_all deg (x : arg num) : all (float_num p) x -> all (float_num p) (in_rad deg x).
Proof.
  destruct deg; cbn; auto. intros H v Hv. rewrite amap_entries in Hv. apply in_map_iff in Hv as [w [<- Hw]].
  apply api_rad, (float_fin p), H, Hw.
Qed.
Lemma out_all deg (x : arg num) : all finite x -> all finite (out_deg deg x).
Proof.
  destruct deg; cbn; auto. intros H v Hv. rewrite amap_entries in Hv. apply in_map_iff in Hv as [w [<- Hw]].
  apply api_deg, H, Hw.
Qed.
Lemma out_shape deg (x : arg num) : shape_of (out_deg deg x) = shape_of x /\ length (entries (out_deg deg x)) = length (entries x).
Proof. destruct deg; cbn; auto. now rewrite amap_shape, amap_entries, map_length. Qed.
Lemma joint_rad deg (x e : arg num) : wf_arg x -> compatible x e -> joint_shape (in_rad deg x) e = joint_shape x e.
Proof. destruct deg; cbn; auto. apply joint_amap. Qed.

Lemma m2e_returns o deg (x e : arg num) : wf_arg x -> wf_arg e -> compatible x e -> layout x -> layout e ->
  all (float_num p) x -> all (ell_ecc p) e -> finite (degree o) ->
  returns finite x e (mean_to_eccentric x e o deg).
Proof.
  intros Hx He Hc Lx Le Ax Ae Hn.
  assert (Wx : wf_arg (in_rad deg x)) by now apply in_rad_wf.
  assert (Cx : compatible (in_rad deg x) e) by now apply in_rad_compat.
  assert (Rx : layout (in_rad deg x)) by now apply in_rad_layout.
  assert (Fx : all (float_num p) (in_rad deg x)) by now apply in_rad_all.
  pose proof (joint_rad deg x e Hx Hc) as J.
  unfold returns, mean_to_eccentric. destruct (is_arr (in_rad deg x) || is_arr e) eqn:A.
  - destruct (broadcast_arr _ e Wx He Cx A) as [B [L1 L2]]. rewrite B. cbn [rbind]. rewrite L1, J in *.
    destruct (size (joint_shape x e)) as [|n] eqn:En.
    + exists (fresh (joint_shape x e) []). cbn. repeat split; auto; easy.
    + cbn [Nat.eqb]. eexists. split; [reflexivity|].
      rewrite !(proj1 (out_shape _ _)), !(proj2 (out_shape _ _)). cbn [fresh shape_of entries].
      split; [reflexivity|]. split.
      * unfold nditer. rewrite map2_length, !map_length, !mem_len by auto. lia.
      * apply out_all. intros y Hy. cbn [fresh entries] in Hy. apply map2_in in Hy as (a & b & Ha & Hb & ->).
        apply (m2e_el_ok p Hp L HL); [|apply Ae, (mem_in _ _ _ Le L2 Hb)|exact Hn]. apply Fx, (mem_in _ _ _ Rx L1 Ha).
  - destruct (in_rad deg x) as [a|] eqn:Ex; [|discriminate]. destruct e as [b|]; [|discriminate]. cbn [broadcast rbind].
    destruct (eqb b (lit 0)).
    + exists x. split; [reflexivity|]. rewrite <- J. cbn.
      assert (S : shape_of x = [] /\ length (entries x) = 1%nat).
      { destruct deg; cbn in Ex; [|subst x; auto]. destruct x as [v|s m d]; [auto|].
        destruct s as [|k [|k' s]]; [destruct d as [|v [|]]| |]; cbn in Ex; try discriminate; auto. }
      destruct S as [S1 S2]. split; [exact S1|]. split; [exact S2|]. intros v Hv. apply (float_fin p), Ax, Hv.
    + eexists. split; [reflexivity|]. rewrite !(proj1 (out_shape _ _)), !(proj2 (out_shape _ _)), <- J. cbn [shape_of entries joint_shape is_arr length].
      split; [reflexivity|]. split; [reflexivity|]. apply out_all. intros v [<-|[]].
      apply (m2e_el_ok p Hp L HL); [apply Fx; cbn; auto|apply Ae; cbn; auto|exact Hn].
Qed.
Lemma wf_result P (x e y : arg num) : compatible x e -> shape_of y = joint_shape x e -> length (entries y) = size (joint_shape x e) ->
  all P y -> wf_arg y /\ compatible y e /\ (joint_shape y e = joint_shape x e).
Proof.
  intros Hc Hs Hl _. destruct y as [v|s m d]; cbn in *.
  - split; [exact I|]. split; [destruct e; exact I|].
    destruct x as [a|s m d], e as [b|s' m' d']; cbn in *; auto; now rewrite Hs in *.
  - subst s. split; [exact Hl|]. split; [|reflexivity]. destruct x as [a|s m' d'], e as [b|s'' m'' d'']; cbn in *; auto.
Qed.
Lemma returns_post (P Q : num -> Prop) (h : num -> num) (deg : bool) x e r : (forall v, P v -> Q (if deg then h v else v)) ->
  returns P x e r -> returns Q x e (rlet y := r in Ok (if deg then amap h y else y)).
Proof.
  intros H (y & -> & S & Ln & A). cbn [rbind]. destruct deg.
  - eexists. split; [reflexivity|]. rewrite amap_shape, amap_entries, map_length. split; [exact S|]. split; [exact Ln|].
    intros v Hv. rewrite amap_entries in Hv. apply in_map_iff in Hv as [w [<- Hw]]. apply H, A, Hw.
  - eexists. split; [reflexivity|]. split; [exact S|]. split; [exact Ln|]. intros v Hv. apply H, A, Hv.
Qed.
Lemma e2t_returns g deg (x e : arg num) : wf_arg x -> wf_arg e -> compatible x e -> all finite x -> all (ell_ecc p) e ->
  returns (okr deg) x e (eccentric_to_true g x e deg).
Proof.
  intros Hx He Hc Ax Ae. apply (elementwise_returns (okr deg) (fun x e => eccentric_to_true g x e deg)); auto.
  - apply C24_eccentric_to_true; auto. intros v Hv. apply api_ordered, Ae, Hv.
  - intros a b Ha Hb. destruct (sc_e2t g a b deg (Ax a Ha) (Ae b Hb)) as [y [Y1 Y2]]. eexists. split; [exact Y1|now apply okr_out].
Qed.
Lemma t2e_returns g deg (x e : arg num) : wf_arg x -> wf_arg e -> compatible x e -> all (float_num p) x -> all (ell_ecc p) e ->
  returns (okr deg) x e (true_to_eccentric g x e deg).
Proof.
  intros Hx He Hc Ax Ae. apply (elementwise_returns (okr deg) (fun x e => true_to_eccentric g x e deg)); auto.
  - apply C24_true_to_eccentric; auto. intros v Hv. apply api_ordered, Ae, Hv.
  - intros a b Ha Hb. destruct (sc_t2e g a b deg (Ax a Ha) (Ae b Hb)) as [y [Y1 Y2]]. eexists. split; [exact Y1|now apply okr_out].
Qed.
Lemma e2m_returns g deg (x e : arg num) : wf_arg x -> wf_arg e -> compatible x e -> all finite x -> all (ell_ecc p) e ->
  returns finite x e (eccentric_to_mean g x e deg).
Proof.
  intros Hx He Hc Ax Ae. apply (elementwise_returns finite (fun x e => eccentric_to_mean g x e deg)); auto.
  - apply C24_eccentric_to_mean; auto. intros v Hv. apply api_ordered, Ae, Hv.
  - intros a b Ha Hb. destruct (sc_e2m g a b deg (Ax a Ha) (Ae b Hb)) as [y [Y1 Y2]]. eexists. split; [exact Y1|now apply fin_out].
Qed.
Lemma returns_comp P Q x e r f : compatible x e -> returns P x e r ->
  (forall y, wf_arg y -> compatible y e -> all P y -> returns Q y e (f y)) -> returns Q x e (rlet y := r in f y).
Proof.
  intros Hc (y & -> & S & Ln & A) H. cbn [rbind]. destruct (wf_result P x e y Hc S Ln A) as (W & C & J).
  destruct (H y W C A) as (z & Z1 & Z2 & Z3 & Z4). exists z. rewrite <- J. auto.
Qed.
Lemma returns_joint P x x' e r : joint_shape x e = joint_shape x' e -> returns P x e r -> returns P x' e r.
Proof. intros E (y & H). rewrite E in H. now exists y. Qed.
Lemma anomalies g g1 g2 o deg (x e : arg num) : wf_arg x -> wf_arg e -> compatible x e -> layout x -> layout e ->
  all (float_num p) x -> all (ell_ecc p) e -> finite (degree o) ->
  returns (okr deg) x e (true_to_eccentric g x e deg)
  /\ returns (okr deg) x e (eccentric_to_true g x e deg)
  /\ returns (okr deg) x e (mean_to_true g x e o deg)
  /\ returns finite x e (eccentric_to_mean g x e deg)
  /\ returns finite x e (true_to_mean g1 g2 x e deg)
  /\ returns finite x e (mean_to_eccentric x e o deg).
Proof.
  intros Hx He Hc Lx Le Ax Ae Hn. assert (Fx : all finite x) by (intros v Hv; apply (float_fin p), Ax, Hv).
  assert (Wx : wf_arg (in_rad deg x)) by now apply in_rad_wf.
  assert (Cx : compatible (in_rad deg x) e) by now apply in_rad_compat.
  assert (Rx : layout (in_rad deg x)) by now apply in_rad_layout.
  assert (Gx : all (float_num p) (in_rad deg x)) by now apply in_rad_all.
  pose proof (joint_rad deg x e Hx Hc) as J.
  split; [now apply t2e_returns|]. split; [now apply e2t_returns|]. split; [|split; [now apply e2m_returns|split; [|now apply m2e_returns]]].
  - apply (returns_joint _ _ _ _ _ J). unfold mean_to_true.
    assert (K : returns (okr false) (in_rad deg x) e
       (rlet E := mean_to_eccentric (in_rad deg x) e o false in eccentric_to_true g E e false)).
    { apply (returns_comp finite); [exact Cx|now apply m2e_returns|]. intros y W C A. now apply e2t_returns. }
    destruct (mean_to_eccentric (in_rad deg x) e o false) as [E|] eqn:EE; cbn [rbind] in *; [|destruct K as (? & ? & _); easy].
    apply (returns_post (okr false) (okr deg) degrees deg _ _ _) in K; [exact K|]. intros v Hv. apply okr_out, Hv.
  - apply (returns_joint _ _ _ _ _ J). unfold true_to_mean.
    assert (K : returns finite (in_rad deg x) e
       (rlet E := true_to_eccentric g1 (in_rad deg x) e false in eccentric_to_mean g2 E e false)).
    { apply (returns_comp (okr false)); [exact Cx|now apply t2e_returns|]. intros y W C A. apply e2m_returns; auto.
      intros v Hv. apply (inside_fin _ _ _ (A v Hv)). }
    destruct (true_to_eccentric g1 (in_rad deg x) e false) as [E|] eqn:EE; cbn [rbind] in *; [|destruct K as (? & ? & _); easy].
    apply (returns_post finite finite degrees deg _ _ _) in K; [exact K|]. intros v Hv. apply fin_out, Hv.
Qed.
End API.

(** C69 for the six anomaly conversions of elliptic orbits: for every mathematics library with [trig_ok], floats and
    arrays of any shape and memory layout, the call succeeds; eccentric and true anomalies come out in [0, 2 pi)
    (with the machine's 2 pi; only finite in degrees), mean anomalies and the solver's result are finite. *)
Theorem C69_anomalies : forall p, (12 < p)%Z -> forall L, trig_ok p L -> forall g g1 g2 o (deg : bool) x e,
  wf_arg x -> wf_arg e -> compatible x e -> layout x -> layout e ->
  all (float_num p) x -> all (ell_ecc p) e -> finite (degree o) ->
  let N := NP_rd (rnd p) L in
  let angle := if deg then finite else inside 0 (rnd p (rnd p 2 * rnd p PI)) in
  returns angle x e (@true_to_eccentric num N g x e deg)
  /\ returns angle x e (@eccentric_to_true num N g x e deg)
  /\ returns angle x e (@mean_to_true num N g x e o deg)
  /\ returns finite x e (@eccentric_to_mean num N g x e deg)
  /\ returns finite x e (@true_to_mean num N g1 g2 x e deg)
  /\ returns finite x e (@mean_to_eccentric num N x e o deg).
Proof. intros p Hp L HL g g1 g2 o deg x e. apply (anomalies p Hp L HL). Qed.

(** ** kep_to_cart *)
(** finite elements with a, mu > 0 and a p-digit eccentricity; for e >= 1 the computed [1 + e cos nu] is positive *)
Definition good_kep (p : Z) (L : libm) (deg : bool) (c : six num) (m : num) : Prop :=
  exists a e i om Om nu mu, c = mk6 (Fin a) (Fin e) (Fin i) (Fin om) (Fin Om) (Fin nu) /\ m = Fin mu
  /\ 0 < a /\ 0 < mu /\ fmt p e /\ 0 <= e
  /\ (e < 1 \/ let nu' := if deg then rnd p (nu * rnd p (rnd p PI / 180)) else nu in
               0 < rnd p (1 + rnd p (e * rnd p (l_cos L nu')))).
Definition fin6 (o : six num) : Prop :=
  finite (s0 o) /\ finite (s1 o) /\ finite (s2 o) /\ finite (s3 o) /\ finite (s4 o) /\ finite (s5 o).
Lemma kep_col p L deg c m : (12 < p)%Z -> trig_ok p L -> good_kep p L deg c m ->
  fin6 (@k2c_col num (NP_rd (rnd p) L) (@edit_col num (NP_rd (rnd p) L) deg c) m).
Proof.
  intros Hp HL (a & e & i & om & Om & nu & mu & -> & -> & Ha & Hmu & Fe & He & Hd).
  set (N := NP_rd (rnd p) L). assert (Hp1 : (1 < p)%Z) by lia.
  assert (K : rnd p (Q2R 180) = 180) by (replace (Q2R 180) with 180 by (unfold Q2R; cbn; lra); apply rnd_fmt, fmt_IZR; pose proof (Z.pow_le_mono_r 2 12 p); lia).
  assert (K1 : @lit num N 1 = Fin 1) by (apply f_1; auto).
  assert (K2 : @lit num N (-1) = Fin (-1)) by (apply f_m1; auto).
  assert (RD : forall x, @radians num N (Fin x) = Fin (rnd p (x * rnd p (rnd p PI / 180)))).
  { intros x. unfold radians. assert (Q : @div num N npi (lit 180) = Fin (rnd p (rnd p PI / 180))).
    { change (@lit num N 180) with (Fin (rnd p (Q2R 180))). rewrite K. apply (f_div p L). lra. }
    rewrite Q. reflexivity. }
  set (r := fun x => if deg then rnd p (x * rnd p (rnd p PI / 180)) else x).
  assert (E : exists a', @edit_col num N deg (mk6 (Fin a) (Fin e) (Fin i) (Fin om) (Fin Om) (Fin nu))
     = mk6 (Fin (if Rlt_dec 1 e then - a' else a')) (Fin e) (Fin (r i)) (Fin (r om)) (Fin (r Om)) (Fin (r nu)) /\ 0 < a').
  { unfold edit_col, r. exists (if Rlt_dec 1 e then rnd p a else a).
    assert (A : (if @ltb num N (@lit num N 1) (Fin e) then @mul num N (Fin a) (@lit num N (-1)) else Fin a)
       = Fin (if Rlt_dec 1 e then - (if Rlt_dec 1 e then rnd p a else a) else if Rlt_dec 1 e then rnd p a else a)).
    { rewrite K1, K2. cbn. unfold Rltb. destruct (Rlt_dec 1 e); [|reflexivity]. f_equal.
      rewrite <- rnd_opp. f_equal. ring. }
    split; [|destruct (Rlt_dec 1 e); [now apply rnd_pos|auto]].
    destruct deg; unfold ang6; cbn [s0 s1 s2 s3 s4 s5]; rewrite ?RD, A; reflexivity. }
  destruct E as [a' [E Ha']]. rewrite E.
  apply (k2c_fin p Hp L a' e (r i) (r om) (r Om) (r nu) mu Ha' Fe He Hmu).
  destruct Hd as [Hd|Hd]; [apply denom_pos; auto; lra|exact Hd].
Qed.
Theorem C69_kep_to_cart : forall p, (12 < p)%Z -> forall L, trig_ok p L -> forall g cols mus deg,
  Forall2 (good_kep p L deg) cols mus ->
  exists outs, snd (@kep_to_cart num (NP_rd (rnd p) L) g (KMat cols) (MuV mus) deg) = Ok (KMat outs)
  /\ length outs = length cols /\ Forall fin6 outs.
Proof.
  intros p Hp L HL g cols mus deg H.
  assert (Len : length cols = length mus) by (clear - H; induction H; cbn; congruence).
  exists (map2 (@k2c_col num (NP_rd (rnd p) L)) (map (@edit_col num (NP_rd (rnd p) L) deg) cols) mus).
  unfold kep_to_cart, mu_mask. rewrite <- Len, Nat.eqb_refl. cbn [snd].
  rewrite kep_edit_map, kep_to_cart_cols_map by (rewrite map_length; exact Len).
  split; [reflexivity|]. clear Len. induction H as [|c m cs ms Hc _ IH]; [split; [reflexivity|constructor]|].
  destruct IH as [I1 I2]. cbn [map map2 length]. split; [now rewrite I1|]. constructor; [now apply kep_col|exact I2].
Qed.

(** ** Where rounding does return an infinity *)
(** The parabolic branch of mean_to_eccentric on the incoming leg: [A + sqrt (A^2 + 1)] cancels to 0 when the 1 is lost,
    and the result is -inf for every M <= -2^(p/2+1) (binary64: -1.4e8), although the exact solution is finite (C21). *)
Lemma rnd_plus1 p x : (1 < p)%Z -> fmt p x -> Core.Raux.bpow Core.Zaux.radix2 (p + 2) <= x -> rnd p (x + 1) = x.
Proof.
  intros Hp Fx Hx. assert (X0 : 0 < x) by (pose proof (Core.Raux.bpow_gt_0 Core.Zaux.radix2 (p + 2)); lra).
  assert (PG : Core.FLX.Prec_gt_0 p) by (unfold Core.FLX.Prec_gt_0; lia). apply Rle_antisym.
  - apply Core.Ulp.round_N_le_midp; [exact (Core.FLX.FLX_exp_valid p)|exact Fx|].
    rewrite Core.Ulp.succ_eq_pos by lra. rewrite Core.Ulp.ulp_neq_0 by lra.
    assert (U : Core.Raux.bpow Core.Zaux.radix2 2 <= Core.Raux.bpow Core.Zaux.radix2 (Core.Generic_fmt.cexp Core.Zaux.radix2 (Core.FLX.FLX_exp p) x)).
    { apply Core.Raux.bpow_le. unfold Core.Generic_fmt.cexp, Core.FLX.FLX_exp.
      assert (p + 2 < Core.Raux.mag_val _ _ (Core.Raux.mag Core.Zaux.radix2 x))%Z.
      { apply Core.Raux.mag_gt_bpow. now rewrite Rabs_pos_eq by lra. } lia. }
    change (Core.Raux.bpow Core.Zaux.radix2 2) with 4 in U. lra.
  - rewrite <- (rnd_fmt p x Fx) at 1. apply rnd_le; [lia|lra].
Qed.
Theorem C69_parabola_refuted : forall p, (12 < p)%Z -> forall L, rnd p (l_cbrt L 0) = 0 ->
  forall M, fmt p M -> M <= 0 -> Core.Raux.bpow Core.Zaux.radix2 (p + 2) <= M * M ->
  forall o, @mean_to_eccentric num (NP_rd (rnd p) L) (Sc (Fin M)) (Sc (Fin 1)) o false = Ok (Sc NInf).
Proof.
  intros p Hp L HC M FM HM HB o. set (N := NP_rd (rnd p) L). assert (Hp1 : (1 < p)%Z) by lia.
  assert (PW : (4096 <= 2 ^ p)%Z) by (pose proof (Z.pow_le_mono_r 2 12 p); lia).
  assert (K1 : @lit num N 1 = Fin 1) by (apply f_1; auto).
  assert (K0 : @lit num N 0 = Fin 0) by (apply f_0; auto).
  unfold mean_to_eccentric. cbn [in_rad broadcast rbind out_deg]. rewrite K0.
  assert (E0 : @eqb num N (Fin 1) (Fin 0) = false) by (cbn; unfold Reqb; destruct Req_EM_T; [lra|auto]). rewrite E0.
  unfold m2e_el. rewrite K1.
  assert (E1 : @ltb num N (Fin 1) (Fin 1) = false) by (cbn; unfold Rltb; destruct Rlt_dec; [lra|auto]). rewrite E1.
  assert (E2 : @eqb num N (Fin 1) (Fin 1) = true) by (cbn; unfold Reqb; destruct Req_EM_T; [auto|lra]). rewrite E2.
  do 2 f_equal. unfold parabolic_m2e.
  set (c := rnd p (rnd p (Q2R 3) / rnd p (Q2R 2))).
  assert (R3 : rnd p (Q2R 3) = 3) by (replace (Q2R 3) with 3 by (unfold Q2R; cbn; lra); apply rnd_fmt, fmt_IZR; lia).
  assert (R2 : rnd p (Q2R 2) = 2) by (now apply r2).
  assert (Q : @div num N (@lit num N 3) (@lit num N 2) = Fin c).
  { change (@lit num N 3) with (Fin (rnd p (Q2R 3))). change (@lit num N 2) with (Fin (rnd p (Q2R 2))).
    apply (f_div p L). rewrite R2. lra. }
  assert (C1 : 1 <= c). { unfold c. rewrite R3, R2, <- (rnd_1 p Hp1) at 1. apply rnd_le; [lia|lra]. }
  rewrite Q. change (@mul num N (Fin c) (Fin M)) with (Fin (rnd p (c * M))).
  set (A := rnd p (c * M)). assert (FA : fmt p A) by (apply fmt_rnd; auto).
  assert (HA : A <= M). { rewrite <- (rnd_fmt p M FM). apply rnd_le; [lia|nra]. }
  unfold sq. change (@mul num N (Fin A) (Fin A)) with (Fin (rnd p (A * A))).
  set (X := rnd p (A * A)). assert (FX : fmt p X) by (apply fmt_rnd; auto).
  assert (HX : Core.Raux.bpow Core.Zaux.radix2 (p + 2) <= X).
  { unfold X. rewrite <- (rnd_fmt p (Core.Raux.bpow Core.Zaux.radix2 (p + 2))).
    - apply rnd_le; [lia|nra].
    - rewrite <- (Rmult_1_l (Core.Raux.bpow _ _)). apply (fmt_scale p 1). lia. }
  rewrite K1. change (@add num N (Fin X) (Fin 1)) with (Fin (rnd p (X + 1))). rewrite rnd_plus1 by auto.
  assert (S : @nsqrt num N (Fin X) = Fin (Rabs A)).
  { rewrite <- (sqrt_sq_eq p Hp1 A FA). assert (X0 : 0 <= X) by (pose proof (Core.Raux.bpow_gt_0 Core.Zaux.radix2 (p + 2)); lra).
    exact (f_sqrt p L X X0). }
  rewrite S. change (@add num N (Fin A) (Fin (Rabs A))) with (Fin (rnd p (A + Rabs A))).
  rewrite Rabs_left1 by lra. replace (A + - A) with 0 by ring. rewrite rnd_0.
  change (@ncbrt num N (Fin 0)) with (Fin (rnd p (l_cbrt L 0))). rewrite HC.
  assert (D : @div num N (Fin 1) (Fin 0) = PInf).
  { cbn. destruct Req_EM_T; [|lra]. unfold num_sign. destruct Rlt_dec; [reflexivity|lra]. }
  rewrite D. reflexivity.
Qed.

(** ** Concrete cases *)
(** the remainder of p-digit numbers is a p-digit number *)
Lemma Rmod_fmt p x y : (1 < p)%Z -> fmt p x -> fmt p y -> 0 <= x -> 0 < y -> fmt p (Rmod x y).
Proof.
  intros Hp Fx Fy Hx Hy. destruct (Rmod_spec x y Hy) as [H1 [n H2]].
  assert (Hr : Rmod x y <= x).
  { destruct (Rlt_dec x y) as [Q|Q]; [rewrite Rmod_id; lra|lra]. }
  set (r := Rmod x y) in *. assert (PG : Core.FLX.Prec_gt_0 p) by (unfold Core.FLX.Prec_gt_0; lia).
  apply Core.FLX.FLX_format_generic in Fx, Fy; auto. destruct Fx as [[mx ex] X1 X2], Fy as [[my ey] Y1 Y2].
  unfold Core.Defs.F2R in X1, Y1. cbn [Core.Defs.Fnum Core.Defs.Fexp] in *.
  change (Z.pow (Core.Zaux.radix_val Core.Zaux.radix2) p) with (2 ^ p)%Z in *.
  set (k := Z.min ex ey). set (b := Core.Raux.bpow Core.Zaux.radix2 k). assert (Hb : 0 < b) by apply Core.Raux.bpow_gt_0.
  assert (Sp : forall e, (k <= e)%Z -> Core.Raux.bpow Core.Zaux.radix2 e = IZR (2 ^ (e - k)) * b).
  { intros e He. change 2%Z with (Core.Zaux.radix_val Core.Zaux.radix2). rewrite Core.Raux.IZR_Zpower by lia. unfold b.
    rewrite <- Core.Raux.bpow_plus. f_equal. ring. }
  set (N := (mx * 2 ^ (ex - k) + my * 2 ^ (ey - k) * n)%Z).
  assert (RN : r = IZR N * b).
  { rewrite H2, X1, Y1, (Sp ex), (Sp ey) by (unfold k; lia). unfold N. rewrite plus_IZR, !mult_IZR. ring. }
  assert (N0 : (0 <= N)%Z) by (apply le_IZR; nra).
  rewrite RN. apply fmt_scale. rewrite Z.abs_eq by auto.
  destruct (Z_le_dec ex ey) as [Q|Q].
  - assert (E : k = ex) by (unfold k; lia).
    assert (N <= mx)%Z; [|lia]. apply le_IZR. apply Rmult_le_reg_r with b; [auto|]. rewrite <- RN. unfold b. rewrite E, <- X1. exact Hr.
  - assert (E : k = ey) by (unfold k; lia).
    assert (N <= my)%Z; [|lia]. apply le_IZR. apply Rmult_le_reg_r with b; [auto|]. rewrite <- RN. unfold b. rewrite E, <- Y1. lra.
Qed.
(** a correctly rounded library satisfies the assumptions *)
Lemma libm0_trig p : (12 < p)%Z -> trig_ok p libm0.
Proof.
  intros Hp. assert (Hp1 : (1 < p)%Z) by lia.
  assert (B : forall t, -1 <= t <= 1 -> -1 <= rnd p t <= 1).
  { intros t Ht. pose proof (rnd_1 p Hp1) as R1.
    assert (R2 : rnd p (- (1)) = - (1)) by (apply rnd_fmt, fmt_opp, fmt_1; lia).
    assert (rnd p (- (1)) <= rnd p t <= rnd p 1) by (split; apply rnd_le; lia || lra). lra. }
  constructor; cbn [libm0 l_sin l_cos l_atan l_mod].
  - intros x. apply B, SIN_bound.
  - intros x. apply B, COS_bound.
  - intros x. pose proof (rnd_err p Hp (sin x)) as E. pose proof (SIN_bound x).
    assert (Rabs (sin x) <= 1) by (apply Rabs_le; lra). lra.
  - intros x. pose proof (atan_bound x). rewrite <- rnd_opp. split; apply rnd_le; lia || lra.
  - intros x y Fx Fy Hx Hy. rewrite rnd_fmt by (apply Rmod_fmt; auto). now apply Rmod_spec.
Qed.
(** two orbits in an array, e = 1/2 and e = 3/4, mean anomalies -3 and 100 *)
Example C69_anomalies_example :
  let N := NP_rd (rnd 53) libm0 in
  let x := Arr [2%nat] [0%nat; 1%nat] [Fin (-3); Fin 100] in let e := Arr [2%nat] [0%nat; 1%nat] [Fin (1/2); Fin (3/4)] in
  returns (inside 0 (rnd 53 (rnd 53 2 * rnd 53 PI))) x e (@mean_to_true num N (fun _ => NaN) x e (@default_options num N) false).
Proof.
  intros N x e. assert (F : forall n k, (Z.abs n < 100)%Z -> fmt 53 (IZR n * Core.Raux.bpow Core.Zaux.radix2 k)).
  { intros n k Hn. apply fmt_scale. lia. }
  assert (F2 : fmt 53 (1/2)) by (replace (1/2) with (1 * Core.Raux.bpow Core.Zaux.radix2 (-1)) by (cbn; lra); apply (F 1%Z); lia).
  assert (F3 : fmt 53 (3/4)) by (replace (3/4) with (3 * Core.Raux.bpow Core.Zaux.radix2 (-2)) by (cbn; lra); apply (F 3%Z); lia).
  apply (C69_anomalies 53 ltac:(lia) libm0 (libm0_trig 53 ltac:(lia)) (fun _ => NaN) (fun _ => NaN) (fun _ => NaN) (@default_options num N) false x e);
    try reflexivity; try apply Permutation_refl.
  - intros v [<-|[<-|[]]]; eexists; (split; [reflexivity|]); apply fmt_IZR; lia.
  - intros v [<-|[<-|[]]]; eexists; (split; [reflexivity|]); (split; [assumption|lra]).
  - now eexists.
Qed.
(** an ellipse in degrees and a hyperbola at its periapsis *)
Example C69_kep_to_cart_example :
  good_kep 53 libm0 true (mk6 (Fin 7000) (Fin (1/2)) (Fin 30) (Fin 40) (Fin 50) (Fin 300)) (Fin 398600)
  /\ good_kep 53 libm0 false (mk6 (Fin 7000) (Fin 2) (Fin 1) (Fin 1) (Fin 1) (Fin 0)) (Fin 398600).
Proof.
  split; do 7 eexists; (split; [reflexivity|]; split; [reflexivity|]; split; [lra|]; split; [lra|]).
  - split; [|lra]. replace (1/2) with (1 * Core.Raux.bpow Core.Zaux.radix2 (-1)) by (cbn; lra). apply (fmt_scale 53 1). lia.
  - split; [apply fmt_IZR; lia|]. split; [lra|]. right. cbn [libm0 l_cos]. rewrite cos_0.
    apply rnd_pos; [lia|]. assert (0 < rnd 53 (2 * rnd 53 1)); [|lra].
    rewrite rnd_1 by lia. apply rnd_pos; [lia|lra].
Qed.
(** binary64: a parabola, M = -2^28 *)
Example C69_parabola_example : @mean_to_eccentric num (NP_rd (rnd 53) libm0) (Sc (Fin (-268435456))) (Sc (Fin 1)) 
  (@default_options num (NP_rd (rnd 53) libm0)) false = Ok (Sc NInf).
Proof.
  apply (C69_parabola_refuted 53 ltac:(lia) libm0).
  - cbn [libm0 l_cbrt]. replace (Rcbrt 0) with 0; [apply rnd_0|].
    symmetry. unfold Rcbrt. repeat destruct Rlt_dec; try lra; reflexivity.
  - apply fmt_IZR. lia.
  - lra.
  - change (53 + 2)%Z with 55%Z. cbn. lra.
Qed.
