(** * Helper lemmas over the reals and evaluation of [num] on finite arguments *)
From Coq Require Import Reals QArith Qreals ZArith Lra Lia Bool List.
From Verif Require Import NP NPReal Spec.
Local Open Scope R_scope.

(** ** Literals *)
Ltac q2r := unfold lit, NP_num, Q2R; cbn; f_equal; lra.
Lemma lit_0 : lit 0 = Fin 0. Proof. q2r. Qed.
Lemma lit_1 : lit 1 = Fin 1. Proof. q2r. Qed.
Lemma lit_2 : lit 2 = Fin 2. Proof. q2r. Qed.
Lemma lit_3 : lit 3 = Fin 3. Proof. q2r. Qed.
Lemma lit_5 : lit 5 = Fin 5. Proof. q2r. Qed.
Lemma lit_6 : lit 6 = Fin 6. Proof. q2r. Qed.
Lemma lit_180 : lit 180 = Fin 180. Proof. q2r. Qed.
Lemma lit_360 : lit 360 = Fin 360. Proof. q2r. Qed.
Lemma lit_m1 : lit (-1) = Fin (-1). Proof. q2r. Qed.
Lemma lit_half : lit 0.5 = Fin (/2). Proof. q2r. Qed.
Lemma lit_quarter : lit 0.25 = Fin (/4). Proof. q2r. Qed.
Lemma lit_1_8 : lit 1.8 = Fin (9/5). Proof. q2r. Qed.
Lemma lit_em9 : lit 1e-9 = Fin (/1000000000). Proof. q2r. Qed.
Lemma lit_em12 : lit 1e-12 = Fin (/1000000000000). Proof. q2r. Qed.
Lemma lit_em8 : lit 1e-8 = Fin (/100000000). Proof. q2r. Qed.
Lemma lit_em5 : lit 1e-5 = Fin (/100000). Proof. q2r. Qed.
Lemma npi_fin : npi = Fin PI. Proof. reflexivity. Qed.
Lemma n2pi_fin : n2pi = Fin (2 * PI). Proof. unfold n2pi. rewrite lit_2. reflexivity. Qed.
#[export] Hint Rewrite lit_0 lit_1 lit_2 lit_3 lit_5 lit_6 lit_180 lit_360 lit_m1 lit_half lit_quarter lit_1_8
  lit_em9 lit_em12 lit_em8 lit_em5 npi_fin n2pi_fin : num.

(** ** Arithmetic on finite values *)
Lemma Fin_add x y : add (Fin x) (Fin y) = Fin (x + y). Proof. reflexivity. Qed.
Lemma Fin_sub x y : sub (Fin x) (Fin y) = Fin (x - y). Proof. reflexivity. Qed.
Lemma Fin_mul x y : mul (Fin x) (Fin y) = Fin (x * y). Proof. reflexivity. Qed.
Lemma Fin_opp x : opp (Fin x) = Fin (- x). Proof. reflexivity. Qed.
Lemma Fin_abs x : nabs (Fin x) = Fin (Rabs x). Proof. reflexivity. Qed.
Lemma Fin_sin x : nsin (Fin x) = Fin (sin x). Proof. reflexivity. Qed.
Lemma Fin_cos x : ncos (Fin x) = Fin (cos x). Proof. reflexivity. Qed.
Lemma Fin_atan x : narctan (Fin x) = Fin (atan x). Proof. reflexivity. Qed.
Lemma Fin_atan2 y x : narctan2 (Fin y) (Fin x) = Fin (Ratan2 y x). Proof. reflexivity. Qed.
Lemma Fin_sinh x : nsinh (Fin x) = Fin (sinh x). Proof. reflexivity. Qed.
Lemma Fin_cosh x : ncosh (Fin x) = Fin (cosh x). Proof. reflexivity. Qed.
Lemma Fin_tanh x : ntanh (Fin x) = Fin (tanh x). Proof. reflexivity. Qed.
Lemma Fin_cbrt x : ncbrt (Fin x) = Fin (Rcbrt x). Proof. reflexivity. Qed.
Lemma Fin_sq x : sq (Fin x) = Fin (x * x). Proof. reflexivity. Qed.
Lemma Fin_cube x : cube (Fin x) = Fin (x * x * x). Proof. reflexivity. Qed.
Lemma Fin_ltb x y : ltb (Fin x) (Fin y) = Rltb x y. Proof. reflexivity. Qed.
Lemma Fin_leb x y : leb (Fin x) (Fin y) = Rleb x y. Proof. reflexivity. Qed.
Lemma Fin_eqb x y : eqb (Fin x) (Fin y) = Reqb x y. Proof. reflexivity. Qed.
Lemma Fin_div x y : y <> 0 -> div (Fin x) (Fin y) = Fin (x / y).
Proof. intros. cbn. destruct (Req_EM_T y 0); easy. Qed.
Lemma Fin_sqrt x : 0 <= x -> nsqrt (Fin x) = Fin (sqrt x).
Proof. intros. cbn. destruct (Rlt_dec x 0); [lra|easy]. Qed.
Lemma Fin_log x : 0 < x -> nlog (Fin x) = Fin (ln x).
Proof. intros. cbn. destruct (Rlt_dec 0 x); [easy|lra]. Qed.
Lemma Fin_tan x : cos x <> 0 -> ntan (Fin x) = Fin (tan x).
Proof. intros. cbn. destruct (Req_EM_T (cos x) 0); easy. Qed.
Lemma Fin_acos x : -1 <= x <= 1 -> narccos (Fin x) = Fin (acos x).
Proof. intros [? ?]. cbn. destruct (Rle_dec (-1) x), (Rle_dec x 1); easy. Qed.
Lemma Fin_atanh x : -1 < x < 1 -> narctanh (Fin x) = Fin (Ratanh x).
Proof. intros [? ?]. cbn. destruct (Rlt_dec (-1) x), (Rlt_dec x 1); easy. Qed.
Lemma Fin_mod x y : y <> 0 -> nmod (Fin x) (Fin y) = Fin (Rmod x y).
Proof. intros. cbn. destruct (Req_EM_T y 0); easy. Qed.
Lemma Fin_radians x : radians (Fin x) = Fin (x * (PI / 180)).
Proof. unfold radians. rewrite lit_180, npi_fin, Fin_div by lra. reflexivity. Qed.
Lemma Fin_degrees x : degrees (Fin x) = Fin (x * (180 / PI)).
Proof. unfold degrees. rewrite lit_180, npi_fin, Fin_div by (apply PI_neq0). reflexivity. Qed.
#[export] Hint Rewrite Fin_add Fin_sub Fin_mul Fin_opp Fin_abs Fin_sin Fin_cos Fin_atan Fin_atan2 Fin_sinh Fin_cosh
  Fin_tanh Fin_cbrt Fin_sq Fin_cube Fin_ltb Fin_leb Fin_eqb Fin_radians Fin_degrees : num.
Ltac num := autorewrite with num.
Tactic Notation "num" "in" hyp(H) := autorewrite with num in H.

(** ** Boolean comparisons *)
Lemma Rltb_spec x y : reflect (x < y) (Rltb x y).
Proof. unfold Rltb. destruct (Rlt_dec x y); constructor; auto. Qed.
Lemma Rleb_spec x y : reflect (x <= y) (Rleb x y).
Proof. unfold Rleb. destruct (Rle_dec x y); constructor; auto. Qed.
Lemma Reqb_spec x y : reflect (x = y) (Reqb x y).
Proof. unfold Reqb. destruct (Req_EM_T x y); constructor; auto. Qed.
Lemma Rltb_true x y : x < y -> Rltb x y = true.
Proof. intros. destruct (Rltb_spec x y); auto. Qed.
Lemma Rltb_false x y : y <= x -> Rltb x y = false.
Proof. intros. destruct (Rltb_spec x y); auto; lra. Qed.
Lemma Rleb_true x y : x <= y -> Rleb x y = true.
Proof. intros. destruct (Rleb_spec x y); auto; lra. Qed.
Lemma Rleb_false x y : y < x -> Rleb x y = false.
Proof. intros. destruct (Rleb_spec x y); auto; lra. Qed.
Lemma Reqb_true x y : x = y -> Reqb x y = true.
Proof. intros. destruct (Reqb_spec x y); auto. Qed.
Lemma Reqb_false x y : x <> y -> Reqb x y = false.
Proof. intros. destruct (Reqb_spec x y); auto; easy. Qed.

(** ** Angles *)
Lemma cong_refl a : cong2pi a a.
Proof. exists 0%Z. lra. Qed.
Lemma cong_sym a b : cong2pi a b -> cong2pi b a.
Proof. intros [n ->]. exists (- n)%Z. rewrite opp_IZR. lra. Qed.
Lemma cong_trans a b c : cong2pi a b -> cong2pi b c -> cong2pi a c.
Proof. intros [n ->] [m ->]. exists (n + m)%Z. rewrite plus_IZR. lra. Qed.
Lemma cong_add a b c d : cong2pi a b -> cong2pi c d -> cong2pi (a + c) (b + d).
Proof. intros [n ->] [m ->]. exists (n + m)%Z. rewrite plus_IZR. lra. Qed.
Lemma cong_opp a b : cong2pi a b -> cong2pi (- a) (- b).
Proof. intros [n ->]. exists (- n)%Z. rewrite opp_IZR. lra. Qed.
Lemma cong_sub a b c d : cong2pi a b -> cong2pi c d -> cong2pi (a - c) (b - d).
Proof. intros. apply cong_add; auto. now apply cong_opp. Qed.
Lemma cong_2pi a : cong2pi (a + 2 * PI) a.
Proof. exists 1%Z. lra. Qed.
Lemma sin_period_Z x n : sin (x + 2 * PI * IZR n) = sin x.
Proof.
  destruct (Z_le_gt_dec 0 n).
  - rewrite <- (sin_period x (Z.to_nat n)). f_equal.
    rewrite INR_IZR_INZ, Z2Nat.id by auto. lra.
  - rewrite <- (sin_period (x + 2 * PI * IZR n) (Z.to_nat (- n))). f_equal.
    rewrite INR_IZR_INZ, Z2Nat.id, opp_IZR by lia. lra.
Qed.
Lemma cos_period_Z x n : cos (x + 2 * PI * IZR n) = cos x.
Proof.
  destruct (Z_le_gt_dec 0 n).
  - rewrite <- (cos_period x (Z.to_nat n)). f_equal.
    rewrite INR_IZR_INZ, Z2Nat.id by auto. lra.
  - rewrite <- (cos_period (x + 2 * PI * IZR n) (Z.to_nat (- n))). f_equal.
    rewrite INR_IZR_INZ, Z2Nat.id, opp_IZR by lia. lra.
Qed.
Lemma cong_sin a b : cong2pi a b -> sin a = sin b.
Proof. intros [n ->]. apply sin_period_Z. Qed.
Lemma cong_cos a b : cong2pi a b -> cos a = cos b.
Proof. intros [n ->]. apply cos_period_Z. Qed.

Lemma Rmod_spec x y : 0 < y -> 0 <= Rmod x y < y /\ exists n : Z, Rmod x y = x + y * IZR n.
Proof.
  intros Hy. unfold Rmod.
  destruct (base_Int_part (x / y)) as [H1 H2].
  assert (E : x = y * (x / y)) by (field; lra).
  split.
  - split.
    + apply Rmult_le_compat_l with (r := y) in H1; [|lra]. lra.
    + assert (y * (x / y - 1) < y * IZR (Int_part (x / y))) by (apply Rmult_lt_compat_l; lra). lra.
  - exists (- Int_part (x / y))%Z. rewrite opp_IZR. lra.
Qed.
Lemma Rmod_2pi x : in_circle (Rmod x (2 * PI)) /\ cong2pi (Rmod x (2 * PI)) x.
Proof.
  destruct (Rmod_spec x (2 * PI)) as [H1 [n H2]]; [pose proof PI_RGT_0; lra|].
  split; auto. exists n. auto.
Qed.
Lemma small_multiple y n : 0 < y -> - y < y * IZR n < y -> n = 0%Z.
Proof.
  intros Hy [H1 H2].
  assert (-1 < IZR n) by (apply Rmult_lt_reg_l with y; lra).
  assert (IZR n < 1) by (apply Rmult_lt_reg_l with y; lra).
  apply lt_IZR in H0. apply (lt_IZR (-1) n) in H. lia.
Qed.
Lemma Rmod_unique x y r : 0 < y -> 0 <= r < y -> (exists n : Z, r = x + y * IZR n) -> Rmod x y = r.
Proof.
  intros Hy Hr [n Hn]. destruct (Rmod_spec x y Hy) as [H1 [m H2]].
  assert (D : Rmod x y - r = y * IZR (m - n)).
  { rewrite H2, Hn, minus_IZR. ring. }
  assert (m - n = 0)%Z by (apply (small_multiple y); lra).
  rewrite H in D. lra.
Qed.
Lemma Rmod_id x y : 0 <= x < y -> Rmod x y = x.
Proof. intros. apply Rmod_unique; try lra. exists 0%Z. lra. Qed.
Lemma in_circle_unique a b : in_circle a -> in_circle b -> cong2pi a b -> a = b.
Proof.
  intros [? ?] [? ?] [n ->]. assert (n = 0)%Z by (apply (small_multiple (2 * PI)); lra).
  subst. lra.
Qed.
Lemma Rmod_cong_iff a b : cong2pi a b <-> Rmod a (2 * PI) = Rmod b (2 * PI).
Proof.
  destruct (Rmod_2pi a) as [A1 A2], (Rmod_2pi b) as [B1 B2]. split.
  - intros C. apply in_circle_unique; auto. 
    eapply cong_trans; [exact A2|]. eapply cong_trans; [exact C|]. now apply cong_sym.
  - intros E. eapply cong_trans; [apply cong_sym, A2|]. rewrite E. exact B2.
Qed.

(** an angle in [0,2pi) is determined by its cosine and sine *)
Lemma sin_neg_half t : in_circle t -> (sin t < 0 <-> PI < t).
Proof.
  intros [H1 H2]. split; intros H.
  - destruct (Rle_lt_dec t PI); auto. pose proof (sin_ge_0 t H1 r). lra.
  - apply sin_lt_0; auto.
Qed.
Lemma angle_by_acos t : in_circle t ->
  (if Rltb (sin t) 0 then 2 * PI - acos (cos t) else acos (cos t)) = t.
Proof.
  intros Ht. pose proof (sin_neg_half t Ht) as Hs. destruct Ht as [H1 H2].
  destruct (Rltb_spec (sin t) 0) as [H|H].
  - apply Hs in H. replace (cos t) with (cos (2 * PI - t)).
    + rewrite acos_cos by lra. lra.
    + rewrite cos_minus, cos_2PI, sin_2PI. lra.
  - rewrite acos_cos; auto. split; auto. destruct (Rle_lt_dec t PI); auto. tauto.
Qed.
Lemma cos_sin_circle c s : c * c + s * s = 1 -> exists t, in_circle t /\ cos t = c /\ sin t = s.
Proof.
  intros E.
  assert (-1 <= c <= 1) as Hc by nra.
  pose proof (acos_bound c) as [B1 B2].
  assert (Ec : cos (acos c) = c) by (apply cos_acos; lra).
  assert (Es : sin (acos c) * sin (acos c) = s * s).
  { pose proof (sin2_cos2 (acos c)) as X. unfold Rsqr in X. rewrite Ec in X. lra. }
  assert (Sp : 0 <= sin (acos c)) by (apply sin_ge_0; auto).
  pose proof PI_RGT_0.
  destruct (Rlt_le_dec s 0) as [Hs|Hs].
  - exists (2 * PI - acos c). 
    assert (sin (acos c) = - s) by nra.
    assert (acos c <> 0). { intros E0. rewrite E0, sin_0 in H0. lra. }
    repeat split; try lra.
    + rewrite cos_minus, cos_2PI, sin_2PI. lra.
    + rewrite sin_minus, cos_2PI, sin_2PI. lra.
  - exists (acos c). assert (sin (acos c) = s) by nra. repeat split; lra.
Qed.
Lemma cos_sin_cong a b : cos a = cos b -> sin a = sin b -> cong2pi a b.
Proof.
  intros C S. destruct (Rmod_2pi a) as [A1 A2], (Rmod_2pi b) as [B1 B2].
  apply Rmod_cong_iff. 
  rewrite <- (angle_by_acos _ A1), <- (angle_by_acos _ B1).
  rewrite (cong_cos _ _ A2), (cong_sin _ _ A2), (cong_cos _ _ B2), (cong_sin _ _ B2), C, S. reflexivity.
Qed.
