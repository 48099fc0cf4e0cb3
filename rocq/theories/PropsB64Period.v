(** * C93: orbital_period and orbital_speed in IEEE binary64: monotone for all doubles, accurate for moderate ones. *)
From Coq Require Import Bool ZArith QArith Qreals Reals Lra Lia List Arith.
From Flocq Require Import Core.Core IEEE754.BinarySingleNaN.
From Verif Require Import Lists OrbitLists OrbitBase OrbitOps OrbitSetters OrbitGet OrbitSpec PropsOrbitLazy PropsOrbitProp.
From Verif Require Import NP NPReal NPFloat FloatBase NPB64 KeplerModel ConvModel UnitModel OrbitModel RealBase Spec FloatAcc PropsFloat PropsFloatAcc PropsFloatC2K PropsFloatLag PropsFloatAnom PropsFloatProp PropsB64 PropsOrbitWidth.
From Verif Require Import B64Sim B64Pi B64Lib B64K2C B64C2K PropsB64Conv PropsB64Orbit.
Import ListNotations.
Local Open Scope R_scope.

(** ** Order: infinities at the ends of the real line *)
Definition top : R := bpow radix2 1024.
Definition cv (b : b64) : R := match b with B754_infinity false => top | B754_infinity true => - top | _ => B2R b end.
Definition cl (t : R) : R := Rmax (- top) (Rmin t top).
Lemma top_pos : 0 < top. Proof. apply bpow_gt_0. Qed.
Lemma fin_lt (b : b64) : Rabs (B2R b) < top. Proof. apply (abs_B2R_lt_emax 53 1024). Qed.
Lemma cv_fin (b : b64) : is_finite b = true -> cv b = B2R b. Proof. now destruct b. Qed.
Lemma fin_nn (b : b64) : is_finite b = true -> is_nan b = false. Proof. now destruct b. Qed.
Lemma cv_top (b : b64) : is_nan b = false -> top <= cv b -> b = B754_infinity false.
Proof.
  intros N H. pose proof (fin_lt b) as F. pose proof top_pos. destruct b as [s|[]| |s m e Hb]; cbn [cv is_nan B2R] in *; try discriminate; auto;
    try (rewrite Rabs_R0 in F); try lra; unfold cv in H; try (apply Rabs_def2 in F; lra).
Qed.
Lemma cv_bot (b : b64) : is_nan b = false -> cv b <= - top -> b = B754_infinity true.
Proof.
  intros N H. pose proof (fin_lt b) as F. pose proof top_pos. destruct b as [s|[]| |s m e Hb]; cbn [cv is_nan B2R] in *; try discriminate; auto;
    try (rewrite Rabs_R0 in F); try lra; unfold cv in H; try (apply Rabs_def2 in F; lra).
Qed.
Lemma cv_range (b : b64) : - top <= cv b <= top.
Proof. pose proof (fin_lt b) as F. apply Rabs_def2 in F. pose proof top_pos. destruct b as [s|[]| |s m e Hb]; unfold cv; lra. Qed.
Lemma dec3 (b : b64) : is_nan b = false -> is_finite b = true \/ b = B754_infinity false \/ b = B754_infinity true.
Proof. destruct b as [s|[]| |s m e Hb]; cbn; intros; auto; discriminate. Qed.
(** numpy's <= is the order of the values *)
Lemma leb_cv (x y : b64) : is_nan x = false -> is_nan y = false -> cv x <= cv y -> Bleb x y = true.
Proof.
  intros Nx Ny H. pose proof top_pos as T. destruct (dec3 x Nx) as [Fx|[-> | ->]].
  - destruct (dec3 y Ny) as [Fy|[-> | ->]].
    + rewrite Bleb_correct by auto. rewrite !cv_fin in H by auto. now apply Rle_bool_true.
    + destruct x as [s|s| |[] m e B]; try discriminate; reflexivity.
    + assert (cv x <= - top) as H' by exact H. apply (cv_bot x Nx) in H'. subst. discriminate.
  - apply (cv_top y Ny) in H. subst. reflexivity.
  - destruct y as [s|[]| |[] m e B]; try discriminate; reflexivity.
Qed.
Lemma cl_le s t : s <= t -> cl s <= cl t.
Proof. intros H. unfold cl. apply Rle_max_compat_l. now apply Rle_min_compat_r. Qed.
Lemma cl_id t : Rabs t < top -> cl t = t.
Proof. intros H. apply Rabs_def2 in H. unfold cl. rewrite Rmin_left by lra. now rewrite Rmax_right by lra. Qed.
Lemma cl_nonneg t : 0 <= t -> 0 <= cl t.
Proof. intros H. pose proof top_pos. unfold cl. apply Rle_trans with (Rmin t top); [apply Rmin_glb; lra|apply Rmax_r]. Qed.
Lemma r64_le x y : x <= y -> rnd64 x <= rnd64 y.
Proof. intros. unfold rnd64. apply round_le; [apply FLT_exp_valid; reflexivity|apply valid_rnd_N|assumption]. Qed.
Lemma r64_nonneg x : 0 <= x -> 0 <= rnd64 x. Proof. intros. rewrite <- rnd64_0. now apply r64_le. Qed.
Lemma sgn_pos (x : b64) : 0 < B2R x -> Bsign x = false.
Proof. destruct x as [s|s| |[] m e B]; cbn [B2R Bsign]; intros; try lra; try reflexivity. pose proof (F2R_lt_0 radix2 (Float radix2 (Zneg m) e) ltac:(reflexivity)). cbn in *. lra. Qed.
Lemma sgn_neg (x : b64) : B2R x < 0 -> Bsign x = true.
Proof. destruct x as [s|s| |[] m e B]; cbn [B2R Bsign]; intros; try lra; try reflexivity. pose proof (F2R_gt_0 radix2 (Float radix2 (Zpos m) e) ltac:(reflexivity)). cbn in *. lra. Qed.
Lemma over_cv (b : b64) s z : B2SF b = binary_overflow 53 1024 mode_NE s -> top <= Rabs (rnd64 z) -> (if s then z < 0 else 0 < z) ->
  is_nan b = false /\ cv b = cl (rnd64 z).
Proof.
  intros E H Hs. assert (b = B754_infinity s) as -> by (apply b64_eq; exact E). split; [reflexivity|].
  pose proof top_pos. destruct s; unfold cl, cv.
  - pose proof (r64_le z 0 ltac:(lra)) as Q. rewrite rnd64_0 in Q. rewrite Rabs_left1 in H by lra. rewrite Rmin_left by lra. rewrite Rmax_left by lra. reflexivity.
  - pose proof (r64_nonneg z ltac:(lra)) as Q. rewrite Rabs_pos_eq in H by lra. rewrite Rmin_right by lra. rewrite Rmax_right by lra. reflexivity.
Qed.
Lemma over_nz z : top <= Rabs (rnd64 z) -> z <> 0.
Proof. intros H ->. rewrite rnd64_0, Rabs_R0 in H. pose proof top_pos. lra. Qed.
Section Ops.
Context (L : blib).
Notation B := (NP_b64 L).
Notation res b z := (is_nan b = false /\ cv b = cl (rnd64 z)).
Lemma fin_res (b : b64) z : is_finite b = true -> B2R b = rnd64 z -> Rabs (rnd64 z) < top -> res b z.
Proof using Type. intros F E H. split; [now apply fin_nn|]. rewrite (cv_fin _ F), E. symmetry. now apply cl_id. Qed.
Lemma mul_res x y : is_finite x = true -> is_finite y = true -> res (@mul _ B x y) (B2R x * B2R y).
Proof using Type.
  intros Fx Fy. pose proof (Bmult_correct 53 1024 b64_prec b64_emax mode_NE x y) as M. change (SpecFloat.fexp 53 1024) with (FLT_exp (-1074) 53) in M. cbn [round_mode] in M.
  fold (rnd64 (B2R x * B2R y)) in M. cbn [mul NP_b64]. destruct (Rlt_bool_spec (Rabs (rnd64 (B2R x * B2R y))) (bpow radix2 1024)) as [H|H].
  - rewrite Fx, Fy in M. destruct M as (E & F & _). now apply fin_res.
  - apply (over_cv _ _ _ M H). pose proof (over_nz _ H) as Z.
    destruct (Rtotal_order (B2R x) 0) as [X|[X|X]]; [|rewrite X in Z; lra|];
      (destruct (Rtotal_order (B2R y) 0) as [Y|[Y|Y]]; [|rewrite Y in Z; lra|]);
      rewrite ?(sgn_pos _ X), ?(sgn_neg _ X), ?(sgn_pos _ Y), ?(sgn_neg _ Y); cbn [xorb]; nra.
Qed.
Lemma div_res x y : is_finite x = true -> is_finite y = true -> B2R y <> 0 -> res (@div _ B x y) (B2R x / B2R y).
Proof using Type.
  intros Fx Fy N. pose proof (Bdiv_correct 53 1024 b64_prec b64_emax mode_NE x y N) as M. change (SpecFloat.fexp 53 1024) with (FLT_exp (-1074) 53) in M. cbn [round_mode] in M.
  fold (rnd64 (B2R x / B2R y)) in M. cbn [div NP_b64]. destruct (Rlt_bool_spec (Rabs (rnd64 (B2R x / B2R y))) (bpow radix2 1024)) as [H|H].
  - rewrite Fx in M. destruct M as (E & F & _). now apply fin_res.
  - apply (over_cv _ _ _ M H). pose proof (over_nz _ H) as Z. unfold Rdiv in *.
    destruct (Rtotal_order (B2R x) 0) as [X|[X|X]]; [|rewrite X in Z; lra|];
      (destruct (Rtotal_order (B2R y) 0) as [Y|[Y|Y]]; [pose proof (Rinv_lt_0_compat _ Y)|lra|pose proof (Rinv_0_lt_compat _ Y)]);
      rewrite ?(sgn_pos _ X), ?(sgn_neg _ X), ?(sgn_pos _ Y), ?(sgn_neg _ Y); cbn [xorb]; nra.
Qed.
Lemma sub_res x y : is_finite x = true -> is_finite y = true -> res (@sub _ B x y) (B2R x - B2R y).
Proof using Type.
  intros Fx Fy. pose proof (Bminus_correct 53 1024 b64_prec b64_emax mode_NE x y Fx Fy) as M. change (SpecFloat.fexp 53 1024) with (FLT_exp (-1074) 53) in M. cbn [round_mode] in M.
  fold (rnd64 (B2R x - B2R y)) in M. cbn [sub NP_b64]. destruct (Rlt_bool_spec (Rabs (rnd64 (B2R x - B2R y))) (bpow radix2 1024)) as [H|H].
  - destruct M as (E & F & _). now apply fin_res.
  - destruct M as (E & S). apply (over_cv _ _ _ E H). pose proof (over_nz _ H) as Z.
    destruct (Rtotal_order (B2R x) 0) as [X|[X|X]]; (destruct (Rtotal_order (B2R y) 0) as [Y|[Y|Y]]);
      try (rewrite ?(sgn_pos _ X), ?(sgn_neg _ X) in *); try (rewrite ?(sgn_pos _ Y), ?(sgn_neg _ Y) in *); cbn [negb] in S; try discriminate; try lra;
      destruct (Bsign x) eqn:Q; rewrite ?S in *; try lra; destruct (Bsign y); cbn in *; try discriminate; try lra.
Qed.
Lemma sqrt_res x : is_finite x = true -> 0 <= B2R x -> is_finite (@nsqrt _ B x) = true /\ B2R (@nsqrt _ B x) = rnd64 (sqrt (B2R x)).
Proof using Type. intros F H. destruct (C88_rounding L x x F F) as (_ & _ & _ & _ & Q & _). now destruct (Q H). Qed.
(** positive and finite *)
Definition pos64 (c : b64) : Prop := is_finite c = true /\ 0 < B2R c.
Lemma pos_fin c : pos64 c -> exists m e Hb, c = B754_finite false m e Hb.
Proof using Type. intros [F H]. pose proof (sgn_pos c H) as S. destruct c as [s|s| |s m e Hb]; cbn in *; try discriminate; try lra. subst. eauto. Qed.
Lemma inf_mul s c : pos64 c -> @mul _ B (B754_infinity s) c = B754_infinity s.
Proof using Type. intros P. destruct (pos_fin c P) as (m & e & Hb & ->). now destruct s. Qed.
Lemma mul_inf s c : pos64 c -> @mul _ B c (B754_infinity s) = B754_infinity s.
Proof using Type. intros P. destruct (pos_fin c P) as (m & e & Hb & ->). now destruct s. Qed.
Lemma inf_div s c : pos64 c -> @div _ B (B754_infinity s) c = B754_infinity s.
Proof using Type. intros P. destruct (pos_fin c P) as (m & e & Hb & ->). now destruct s. Qed.
Lemma inf_sub c : is_finite c = true -> @sub _ B (B754_infinity false) c = B754_infinity false.
Proof using Type. now destruct c as [s|s| |s m e Hb]. Qed.

Definition up (x x' : b64) : Prop := is_nan x = false /\ is_nan x' = false /\ 0 <= cv x <= cv x'.
Lemma up_cases x x' : up x x' -> (is_finite x = true /\ is_finite x' = true /\ 0 <= B2R x <= B2R x') \/ (is_finite x = true /\ 0 <= B2R x /\ x' = B754_infinity false) \/ (x = B754_infinity false /\ x' = B754_infinity false).
Proof using Type.
  intros (N & N' & H0 & H). pose proof top_pos. destruct (dec3 x N) as [F|[-> | ->]].
  - rewrite (cv_fin x F) in *. destruct (dec3 x' N') as [F'|[-> | ->]]; [rewrite (cv_fin _ F') in H; auto| |unfold cv in H; lra]. right. left. auto.
  - right. right. split; [reflexivity|]. apply (cv_top x' N'). exact H.
  - unfold cv in H0. lra.
Qed.
Lemma up_res b b' z z' : res b z -> res b' z' -> 0 <= z <= z' -> up b b'.
Proof using Type. intros [N E] [N' E'] [H H']. split; [auto|split; [auto|]]. rewrite E, E'. split; [now apply cl_nonneg, r64_nonneg|now apply cl_le, r64_le]. Qed.
Lemma up_inf b z : res b z -> 0 <= z -> up b (B754_infinity false).
Proof using Type. intros [N E] H. split; [auto|]. split; [reflexivity|]. split; [rewrite E; now apply cl_nonneg, r64_nonneg|apply (cv_range b)]. Qed.
Lemma up_top : up (B754_infinity false) (B754_infinity false).
Proof using Type. split; [reflexivity|]. split; [reflexivity|]. pose proof top_pos. unfold cv. lra. Qed.
Lemma mul_up x x' c c' : up x x' -> pos64 c -> pos64 c' -> B2R c <= B2R c' -> up (@mul _ B x c) (@mul _ B x' c').
Proof using Type.
  intros U P P' H. pose proof P as [Fc Pc]. pose proof P' as [Fc' _]. destruct (up_cases x x' U) as [(F & F' & H0)|[(F & H0 & ->)|(-> & ->)]]; rewrite ?(inf_mul _ _ P), ?(inf_mul _ _ P').
  - apply (up_res _ _ (B2R x * B2R c) (B2R x' * B2R c')); [now apply mul_res|now apply mul_res|]. split; [apply Rmult_le_pos; lra|apply Rmult_le_compat; lra].
  - apply (up_inf _ (B2R x * B2R c)); [now apply mul_res|]. apply Rmult_le_pos; lra.
  - apply up_top.
Qed.
Lemma lmul_up c x x' : pos64 c -> up x x' -> up (@mul _ B c x) (@mul _ B c x').
Proof using Type.
  intros P U. pose proof P as [Fc Pc]. destruct (up_cases x x' U) as [(F & F' & H0)|[(F & H0 & ->)|(-> & ->)]]; rewrite ?(mul_inf _ c P).
  - apply (up_res _ _ (B2R c * B2R x) (B2R c * B2R x')); [now apply mul_res|now apply mul_res|]. split; [apply Rmult_le_pos; lra|apply Rmult_le_compat_l; lra].
  - apply (up_inf _ (B2R c * B2R x)); [now apply mul_res|]. apply Rmult_le_pos; lra.
  - apply up_top.
Qed.
Lemma div_up x x' c c' : up x x' -> pos64 c -> pos64 c' -> B2R c' <= B2R c -> up (@div _ B x c) (@div _ B x' c').
Proof using Type.
  intros U P P' H. pose proof P' as [Fc' Pc']. pose proof P as [Fc Pc].
  assert (I : 0 < / B2R c <= / B2R c') by (split; [now apply Rinv_0_lt_compat|now apply Rinv_le_contravar]).
  destruct (up_cases x x' U) as [(F & F' & H0)|[(F & H0 & ->)|(-> & ->)]]; rewrite ?(inf_div _ _ P), ?(inf_div _ _ P').
  - apply (up_res _ _ (B2R x / B2R c) (B2R x' / B2R c')); [apply div_res; auto; lra|apply div_res; auto; lra|]. unfold Rdiv. split; [apply Rmult_le_pos; lra|apply Rmult_le_compat; lra].
  - apply (up_inf _ (B2R x / B2R c)); [apply div_res; auto; lra|]. unfold Rdiv. apply Rmult_le_pos; lra.
  - apply up_top.
Qed.
Lemma sqrt_up x x' : up x x' -> up (@nsqrt _ B x) (@nsqrt _ B x').
Proof using Type.
  intros U. destruct (up_cases x x' U) as [(F & F' & H0)|[(F & H0 & ->)|(-> & ->)]].
  - destruct (sqrt_res x F ltac:(lra)) as [G E]. destruct (sqrt_res x' F' ltac:(lra)) as [G' E']. unfold up. rewrite !cv_fin by auto. rewrite E, E'.
    split; [now apply fin_nn|]. split; [now apply fin_nn|]. split; [apply r64_nonneg, sqrt_pos|apply r64_le, sqrt_le_1; lra].
  - destruct (sqrt_res x F H0) as [G E]. split; [now apply fin_nn|]. split; [reflexivity|]. split; [rewrite cv_fin, E by auto; apply r64_nonneg, sqrt_pos|apply cv_range].
  - apply up_top.
Qed.
Lemma pos_up a a' : pos64 a -> pos64 a' -> B2R a <= B2R a' -> up a a'.
Proof using Type. intros [F P] [F' P'] H. unfold up. rewrite !cv_fin by auto. split; [now apply fin_nn|]. split; [now apply fin_nn|]. lra. Qed.
Lemma twopi_pos : pos64 (@mul _ B (@lit _ B 2) (@npi _ B)).
Proof using Type.
  split; [vm_compute; reflexivity|]. assert (S : Bsign (@mul _ B (@lit _ B 2) (@npi _ B)) = false) by (vm_compute; reflexivity).
  assert (F : is_finite_strict (@mul _ B (@lit _ B 2) (@npi _ B)) = true) by (vm_compute; reflexivity).
  revert S F. generalize (@mul _ B (@lit _ B 2) (@npi _ B)). intros [s|s| |s m e Hb]; cbn; intros Es Ef; try discriminate. subst s. now apply F2R_gt_0.
Qed.

(** A larger orbit, or a weaker attraction, never has a shorter computed period: for all positive doubles,
    overflow (an infinite period) and underflow included.  In particular the period is never NaN. *)
Theorem C93_period_monotone : forall a a' mu mu', pos64 a -> pos64 a' -> pos64 mu -> pos64 mu' -> B2R a <= B2R a' -> B2R mu' <= B2R mu ->
  @leb _ B (@orbital_period _ B a mu) (@orbital_period _ B a' mu') = true.
Proof using Type.
  intros a a' mu mu' Pa Pa' Pm Pm' Ha Hm. unfold orbital_period, cube.
  assert (U : up (@mul _ B (@mul _ B (@lit _ B 2) (@npi _ B)) (@nsqrt _ B (@div _ B (@mul _ B (@mul _ B a a) a) mu)))
                 (@mul _ B (@mul _ B (@lit _ B 2) (@npi _ B)) (@nsqrt _ B (@div _ B (@mul _ B (@mul _ B a' a') a') mu')))).
  { apply lmul_up; [apply twopi_pos|]. apply sqrt_up, div_up; auto. apply mul_up; auto. apply mul_up; auto. now apply pos_up. }
  destruct U as (N & N' & _ & H). now apply leb_cv.
Qed.

(** mul by a positive constant and sub of a constant keep the order of all numbers *)
Lemma lmul_le c x x' : pos64 c -> is_nan x = false -> is_nan x' = false -> cv x <= cv x' ->
  is_nan (@mul _ B c x) = false /\ is_nan (@mul _ B c x') = false /\ cv (@mul _ B c x) <= cv (@mul _ B c x').
Proof using Type.
  intros P N N' H. pose proof P as [Fc Pc]. pose proof top_pos.
  assert (X : forall y, is_nan y = false -> is_nan (@mul _ B c y) = false).
  { intros y Ny. destruct (dec3 y Ny) as [F|[-> | ->]]; rewrite ?(mul_inf _ c P); try reflexivity. now apply mul_res. }
  split; [now apply X|]. split; [now apply X|].
  destruct (dec3 x N) as [F|[-> | ->]].
  - destruct (dec3 x' N') as [F'|[-> | ->]].
    + destruct (mul_res c x Fc F) as [_ ->]. destruct (mul_res c x' Fc F') as [_ ->]. rewrite !cv_fin in H by auto. apply cl_le, r64_le. apply Rmult_le_compat_l; lra.
    + rewrite (mul_inf _ c P). apply (cv_range (@mul _ B c x)).
    + assert (cv x <= - top) as H' by exact H. apply (cv_bot x N) in H'. subst. apply Rle_refl.
  - apply (cv_top x' N') in H. subst. apply Rle_refl.
  - rewrite (mul_inf _ c P). apply (cv_range (@mul _ B c x')).
Qed.
Lemma sub_le x x' c : up x x' -> is_finite c = true ->
  is_nan (@sub _ B x c) = false /\ is_nan (@sub _ B x' c) = false /\ cv (@sub _ B x c) <= cv (@sub _ B x' c).
Proof using Type.
  intros U Fc. destruct (up_cases x x' U) as [(F & F' & H0)|[(F & H0 & ->)|(-> & ->)]]; rewrite ?(inf_sub c Fc).
  - destruct (sub_res x c F Fc) as [N ->]. destruct (sub_res x' c F' Fc) as [N' ->]. split; [auto|]. split; [auto|]. apply cl_le, r64_le. lra.
  - destruct (sub_res x c F Fc) as [N _]. split; [auto|]. split; [reflexivity|]. apply (cv_range (@sub _ B x c)).
  - split; [reflexivity|]. split; [reflexivity|]. apply Rle_refl.
Qed.
Lemma sqrt_nn x : is_nan (@nsqrt _ B x) = false -> is_nan x = false /\ 0 <= cv x.
Proof using Type.
  destruct x as [s|[]| |[] m e Hb]; intros N; try discriminate; (split; [reflexivity|]); unfold cv; try apply Rle_refl; try apply Rlt_le, top_pos.
  apply Rlt_le. now apply F2R_gt_0.
Qed.
Lemma lit_pos z : (0 < z < 2 ^ 53)%Z -> pos64 (@lit _ B (inject_Z z)).
Proof using Type.
  intros Hz. destruct (C88_literal L (inject_Z z)) as [F E]; [cbn; lia|cbn; lia|]. split; [exact F|]. rewrite E.
  assert (Q2R (inject_Z z) = IZR z) as -> by (unfold Q2R; cbn; lra).
  rewrite (rnd64_grid _ 0 ltac:(lia)) by (exists z; cbn; ring). apply (rnd_pos 53 ltac:(lia)). apply IZR_lt. lia.
Qed.

(** On an orbit of given semi-major axis (negative for a hyperbola) a body closer to the centre is never computed to be slower,
    and its speed is never NaN where that of a farther one is not.  1/a must not overflow. *)
Theorem C93_speed_monotone : forall r r' a mu, pos64 r -> pos64 r' -> pos64 mu -> is_finite (@div _ B (@lit _ B 1) a) = true -> B2R r <= B2R r' ->
  is_nan (@orbital_speed _ B r' a mu) = false -> @leb _ B (@orbital_speed _ B r' a mu) (@orbital_speed _ B r a mu) = true.
Proof using Type.
  intros r r' a mu Pr Pr' Pm Fa Hr N. unfold orbital_speed in *.
  pose proof (lit_pos 2 ltac:(lia)) as P2. change (inject_Z 2) with (2 # 1)%Q in P2.
  assert (U : up (@div _ B (@lit _ B 2) r') (@div _ B (@lit _ B 2) r)) by (apply div_up; auto; apply pos_up; auto; apply Rle_refl).
  destruct (sub_le _ _ _ U Fa) as (N1 & N2 & H). destruct (lmul_le mu _ _ Pm N1 N2 H) as (N3 & N4 & H').
  destruct (sqrt_nn _ N) as [_ H0].
  destruct (sqrt_up _ _ (conj N3 (conj N4 (conj H0 H')))) as (M1 & M2 & _ & M). now apply leb_cv.
Qed.
End Ops.

(** ** Accuracy *)
Section Rounded.
Context (rd : R -> R) (u : R) (Lm : libm) (Hr : rounding rd u) (Hu : u <= / 1000000).
Notation N := (NP_rd rd Lm).
Lemma period_acc a mu : 0 < a -> 0 < mu ->
  exists P, @orbital_period _ N (Fin a) (Fin mu) = Fin P /\ Rabs (P - 2 * PI * sqrt (a * a * a / mu)) <= 14 * u * (2 * PI * sqrt (a * a * a / mu)).
Proof using Hr Hu.
  intros Ha Hm. pose proof PI_RGT_0 as Hp. unfold orbital_period.
  assert (L2 : @lit _ N 2 = Fin 2) by exact (b_2 rd u Lm Hr). rewrite L2. unfold cube.
  change (@mul _ N (Fin 2) (@npi _ N)) with (Fin (rd (2 * rd PI))).
  change (@mul _ N (@mul _ N (Fin a) (Fin a)) (Fin a)) with (Fin (rd (rd (a * a) * a))).
  assert (U4 : u <= / 10000) by lra.
  assert (A3 : rel u (rd (rd (a * a) * a)) (a * a * a) 4).
  { apply (r_mul rd u Hr Hu _ _ _ _ 2 0); try lra; [apply (r_mul rd u Hr Hu _ _ _ _ 0 0); try lra; apply rel_refl|apply rel_refl]. }
  assert (P3 : 0 < a * a * a) by (repeat apply Rmult_lt_0_compat; lra).
  destruct (rel_div rd u Hr u (Rle_refl u) U4 _ _ _ _ _ _ A3 (rel_refl u mu) ltac:(lra) ltac:(lra) ltac:(lra)) as [N0 Q].
  assert (DV : @div _ N (Fin (rd (rd (a * a) * a))) (Fin mu) = Fin (rd (rd (rd (a * a) * a) / mu))) by (apply (b_div rd Lm); lra). rewrite DV.
  assert (QP : 0 < a * a * a / mu) by now apply Rdiv_lt_0_compat.
  destruct (rel_sqrt rd u Hr u (Rle_refl u) U4 _ _ _ QP Q ltac:(lra)) as [SP SQ].
  assert (NS : @nsqrt _ N (Fin (rd (rd (rd (a * a) * a) / mu))) = Fin (rd (sqrt (rd (rd (rd (a * a) * a) / mu))))) by (apply (b_sqrt rd Lm); lra). rewrite NS.
  set (sq' := rd (sqrt (rd (rd (rd (a * a) * a) / mu)))) in *.
  change (@mul _ N (Fin (rd (2 * rd PI))) (Fin sq')) with (Fin (rd (rd (2 * rd PI) * sq'))).
  assert (T1 : rel u (rd (2 * rd PI)) (2 * PI) 4) by (apply (r_mul rd u Hr Hu _ _ _ _ 0 (1 + / 50)); try lra; [apply rel_refl|apply (r_pi rd u Hr Hu)]).
  pose proof (r_mul rd u Hr Hu _ _ _ _ _ _ 14 T1 SQ ltac:(lra) ltac:(lra) ltac:(lra)) as T3.
  assert (SP0 : 0 < sqrt (a * a * a / mu)) by now apply sqrt_lt_R0.
  eexists. split; [reflexivity|]. unfold rel in T3. rewrite (Rabs_pos_eq (2 * PI * sqrt (a * a * a / mu))) in T3 by (apply Rlt_le, Rmult_lt_0_compat; lra). exact T3.
Qed.
End Rounded.
Section Period64.
Context (L : blib).
Notation B := (NP_b64 L).
Notation N := (NP_rd (rnd 53) (real_lib L)).
Lemma period_sim a mu : sized (-100) 100 a -> sized (-100) 100 mu -> 0 < B2R a -> 0 < B2R mu ->
  exists k m K, sim k m K (@orbital_period _ B a mu) (@orbital_period _ N (Fin (B2R a)) (Fin (B2R mu))).
Proof using Type.
  intros Ha Hm Pa Pm. pose proof (sized_sim _ _ _ Ha) as Sa. pose proof (sized_sim _ _ _ Hm) as Sm. cbn [Z.sub Z.add Z.opp Z.pos_sub Pos.add] in Sa, Sm.
  unfold orbital_period, cube.
  smul L (sim_2 L) (sim_npi L) S0 (-60)%Z 2%Z 3%Z.
  smul L Sa Sa S1 (-252)%Z (-200)%Z 200%Z. smul L S1 Sa S2 (-352)%Z (-300)%Z 300%Z.
  assert (Z : B2R mu <> 0) by lra. sdiv L S2 Sm Z S3 (-452)%Z (-400)%Z 400%Z.
  assert (P3 : 0 <= B2R (@div _ B (@mul _ B (@mul _ B a a) a) mu)).
  { assert (F3 : is_finite (@div _ B (@mul _ B (@mul _ B a a) a) mu) = true) by apply S3. rewrite <- (cv_fin _ F3).
    assert (Qa : pos64 a) by (split; [apply Ha|exact Pa]). assert (Qm : pos64 mu) by (split; [apply Hm|exact Pm]).
    assert (U : up (@div _ B (@mul _ B (@mul _ B a a) a) mu) (@div _ B (@mul _ B (@mul _ B a a) a) mu)).
    { apply div_up; auto; [|apply Rle_refl]. apply mul_up; auto; [|apply Rle_refl]. apply mul_up; auto; [|apply Rle_refl]. apply pos_up; auto. apply Rle_refl. }
    apply U. }
  pose proof (sim_sqrt L (real_lib L) _ _ _ (-200)%Z 200%Z _ _ S3 P3 ltac:(lia) ltac:(lia)) as S4.
  assert (S5 := S4 ltac:(lia)). clear S4. smul L S0 S5 S6 (-320)%Z (-198)%Z 203%Z. eauto.
Qed.
(** For semi-major axes and gravitational parameters between 2^-100 and 2^100 the period is finite and correct to 14 units in the last place *)
Theorem C93_period_accurate : forall a mu, sized (-100) 100 a -> sized (-100) 100 mu -> 0 < B2R a -> 0 < B2R mu ->
  is_finite (@orbital_period _ B a mu) = true /\
  Rabs (B2R (@orbital_period _ B a mu) - 2 * PI * sqrt (B2R a ^ 3 / B2R mu)) <= 14 * ulp1 53 * (2 * PI * sqrt (B2R a ^ 3 / B2R mu)).
Proof using Type.
  intros a mu Ha Hm Pa Pm. destruct (period_sim a mu Ha Hm Pa Pm) as (k & m & K & S).
  destruct (period_acc (rnd 53) (ulp1 53) (real_lib L) (binary_rounding 53 ltac:(lia)) ltac:(pose proof ulp1_le; lra) (B2R a) (B2R mu) Pa Pm) as (P & E & C).
  rewrite E in S. split; [apply S|]. rewrite (sim_val _ _ _ _ _ S). replace (B2R a ^ 3) with (B2R a * B2R a * B2R a) by ring. exact C.
Qed.

(** ** orb.period, after orb.kepler has been read *)
Theorem C93_orbit_period : forall gb gb' n (s s1 s2 : orb b64) ks ps, lens n s -> @get_kepler b64 B gb s = (s1, Ok ks) -> @get_period b64 B gb' s1 = (s2, Ok ps) ->
  (forall i k m, nth_error ks i = Some k -> nth_error (om s) i = Some m -> exists p, nth_error ps i = Some p /\
    let mu := mu64 L s m in
    (sized (-100) 100 (s0 k) -> sized (-100) 100 mu -> 0 < B2R (s0 k) -> 0 < B2R mu ->
      is_finite p = true /\ Rabs (B2R p - 2 * PI * sqrt (B2R (s0 k) ^ 3 / B2R mu)) <= 14 * ulp1 53 * (2 * PI * sqrt (B2R (s0 k) ^ 3 / B2R mu)))) /\
  (forall i j k l m m' p q, nth_error ks i = Some k -> nth_error ks j = Some l -> nth_error (om s) i = Some m -> nth_error (om s) j = Some m' ->
    nth_error ps i = Some p -> nth_error ps j = Some q ->
    pos64 (s0 k) -> pos64 (s0 l) -> pos64 (mu64 L s m) -> pos64 (mu64 L s m') -> B2R (s0 k) <= B2R (s0 l) -> B2R (mu64 L s m') <= B2R (mu64 L s m) -> @leb _ B p q = true).
Proof using Type.
  intros gb gb' n s s1 s2 ks ps Hl Hk Hp. rewrite (@get_kepler_eq b64 B gb n s Hl) in Hk. assert (s1 = @kchk b64 B gb s) as -> by congruence.
  assert (ks = okep (@kchk b64 B gb s)) as -> by congruence. clear Hk. pose proof (@lens_kchk b64 B gb n s Hl) as Hl1.
  rewrite (@get_period_eq b64 B gb' n _ Hl1), (@kchk_core b64 B gb gb' n s _ Hl Hl1 eq_refl) in Hp.
  assert (Es : ps = map2 (@orbital_period b64 B) (map (row_get 0) (okep (@kchk b64 B gb s))) (map (mu64 L s) (om s))).
  { assert (ps = map2 (@orbital_period b64 B) (map (row_get 0) (okep (@kchk b64 B gb s))) (map (@mu_of b64 B (@kchk b64 B gb s)) (om (@kchk b64 B gb s)))) as -> by congruence.
    destruct (@kchk_spec b64 B gb n s Hl) as [_ [_ [_ [Q [Em _]]]]]. rewrite Em. f_equal. apply map_ext. intros m. apply settings_eq in Q. destruct Q as [E0 [E1 _]]. unfold mu_of, mu64. now rewrite E0, E1. }
  clear Hp. assert (X : forall i k m, nth_error (okep (@kchk b64 B gb s)) i = Some k -> nth_error (om s) i = Some m ->
    nth_error ps i = Some (@orbital_period b64 B (s0 k) (mu64 L s m))).
  { intros i k m Hk Hm. rewrite Es, nth_error_map2, !nth_error_map, Hk, Hm. reflexivity. }
  split.
  - intros i k m Hk Hm. exists (@orbital_period b64 B (s0 k) (mu64 L s m)). split; [now apply X|]. intros mu H1 H2 H3 H4. now apply C93_period_accurate.
  - intros i j k l m m' p q Hk Hl' Hm Hm' Hp Hq P1 P2 P3 P4 Ha Hu. rewrite (X i k m Hk Hm) in Hp. rewrite (X j l m' Hl' Hm') in Hq.
    assert (p = @orbital_period b64 B (s0 k) (mu64 L s m)) as -> by congruence. assert (q = @orbital_period b64 B (s0 l) (mu64 L s m')) as -> by congruence.
    now apply C93_period_monotone.
Qed.
End Period64.

(** ** Hypotheses met *)
Lemma pos_bz n e : (0 < n < 2 ^ 53)%Z -> (-1074 <= e <= 900)%Z -> pos64 (bz n e).
Proof.
  intros Hn He. destruct (bz_dyadic n e ltac:(lia) He) as [F E]. split; [exact F|]. rewrite E. apply Rmult_lt_0_compat; [apply IZR_lt; lia|apply bpow_gt_0].
Qed.
(** two orbits with the semi-major axes 7000 and 2^400 (a^3 overflows, the period is infinite) around 398600 *)
Definition two64 : orb b64 :=
  let N := NP_b64 lib_exact in let k2 := mk6 (bz 1 400) (bz 1 (-1)) (bz 1 0) (bz 1 0) (bz 1 0) (bz 1 0) in
  mkorb ex_mu (bz 1 0) false false false false false ATrue (@default_options b64 N)
    [bz 0 0; bz 0 0] [@nan6c b64 N; @nan6c b64 N] [ex_k; k2] [@nan b64 N; @nan b64 N] (fresh [2%nat] [@nan b64 N; @nan b64 N]) [@nan b64 N; @nan b64 N] [false; false] [false; false] None.
Example C93_orbit_example : forall gb gb', exists p q, snd (@get_period b64 (NP_b64 lib_exact) gb' two64) = Ok [p; q] /\
  is_finite p = true /\ Rabs (B2R p - 2 * PI * sqrt (7000 ^ 3 / 398600)) <= 14 * ulp1 53 * (2 * PI * sqrt (7000 ^ 3 / 398600)) /\
  q = B754_infinity false /\ @leb _ (NP_b64 lib_exact) p q = true /\ @get_kepler b64 (NP_b64 lib_exact) gb two64 = (two64, Ok (okep two64)).
Proof.
  intros gb gb'. set (N := NP_b64 lib_exact).
  assert (Hl : lens 2 two64) by (repeat split; reflexivity).
  pose proof (@get_period_eq b64 N gb' 2 two64 Hl) as Ep. rewrite (@kchk_id b64 N gb' two64 eq_refl) in Ep.
  pose proof (@get_kepler_eq b64 N gb 2 two64 Hl) as Ek. rewrite (@kchk_id b64 N gb two64 eq_refl) in Ek.
  assert (Mu : mu64 lib_exact two64 (bz 0 0) = ex_mu) by (apply B2SF_inj; vm_compute; reflexivity).
  destruct (C93_orbit_period lib_exact gb gb' 2 two64 two64 two64 _ _ Hl Ek Ep) as [A M].
  destruct ex_kep_ok as (Em & Ekk & _ & _ & T). destruct T as (Ta & _ & Tm & _).
  assert (E0 : B2R (s0 ex_k) = 7000) by (change (B2R (s0 ex_k)) with (s0 (real6 ex_k)); now rewrite Ekk).
  exists (@orbital_period b64 N (bz 7000 0) ex_mu), (B754_infinity false).
  destruct (A 0%nat ex_k (bz 0 0) eq_refl eq_refl) as (p & Hp & C).
  assert (q : map2 (@orbital_period b64 N) (map (row_get 0) (okep two64)) (map (@mu_of b64 N two64) (om two64)) = [@orbital_period b64 N (bz 7000 0) ex_mu; B754_infinity false]).
  { change (map2 (@orbital_period b64 N) (map (row_get 0) (okep two64)) (map (@mu_of b64 N two64) (om two64)))
      with [@orbital_period b64 N (bz 7000 0) (mu64 lib_exact two64 (bz 0 0)); @orbital_period b64 N (bz 1 400) (mu64 lib_exact two64 (bz 0 0))].
    rewrite Mu. assert (E2 : @orbital_period b64 N (bz 1 400) ex_mu = B754_infinity false) by (apply B2SF_inj; vm_compute; reflexivity). now rewrite E2. }
  rewrite q in Hp, Ep, M. change (nth_error [@orbital_period b64 N (bz 7000 0) ex_mu; B754_infinity false] 0) with (Some (@orbital_period b64 N (bz 7000 0) ex_mu)) in Hp.
  assert (p = @orbital_period b64 N (bz 7000 0) ex_mu) as -> by congruence.
  rewrite Mu in C. cbv zeta in C. rewrite E0, Em in C. destruct (C Ta Tm ltac:(lra) ltac:(lra)) as [F Cl].
  split; [now rewrite Ep|]. split; [exact F|]. split; [exact Cl|]. split; [reflexivity|]. split; [|exact Ek].
  apply (M 0%nat 1%nat ex_k (mk6 (bz 1 400) (bz 1 (-1)) (bz 1 0) (bz 1 0) (bz 1 0) (bz 1 0)) (bz 0 0) (bz 0 0)); try reflexivity; rewrite ?Mu; try apply Rle_refl;
    try (apply pos_bz; lia).
  rewrite E0. cbn [s0]. destruct (bz_dyadic 1 400 ltac:(lia) ltac:(lia)) as [_ ->]. rewrite Rmult_1_l.
  apply Rle_trans with (bpow radix2 13); [cbn; lra|apply bpow_le; lia].
Qed.
(** at the distances 7000 and 2^-1074 (2/r overflows) on the hyperbola with a = -1 and on the ellipse with a = 7000 *)
Example C93_speed_example :
  @leb _ (NP_b64 lib_exact) (@orbital_speed _ (NP_b64 lib_exact) (bz 7000 0) (bz (-1) 0) ex_mu) (@orbital_speed _ (NP_b64 lib_exact) (bz 1 (-1074)) (bz (-1) 0) ex_mu) = true /\
  @leb _ (NP_b64 lib_exact) (@orbital_speed _ (NP_b64 lib_exact) (bz 7000 0) (bz 7000 0) ex_mu) (@orbital_speed _ (NP_b64 lib_exact) (bz 6000 0) (bz 7000 0) ex_mu) = true.
Proof.
  assert (P : pos64 (bz 7000 0)) by (apply pos_bz; lia). assert (Pm : pos64 ex_mu) by (apply pos_bz; lia).
  split.
  - refine (C93_speed_monotone lib_exact (bz 1 (-1074)) (bz 7000 0) (bz (-1) 0) ex_mu _ P Pm _ _ _).
    + apply pos_bz; lia.
    + vm_compute; reflexivity.
    + destruct (bz_dyadic 1 (-1074) ltac:(lia) ltac:(lia)) as [_ ->]. destruct (bz_dyadic 7000 0 ltac:(lia) ltac:(lia)) as [_ ->].
      rewrite Rmult_1_l. apply Rle_trans with (bpow radix2 0); [apply bpow_le; lia|cbn; lra].
    + vm_compute; reflexivity.
  - refine (C93_speed_monotone lib_exact (bz 6000 0) (bz 7000 0) (bz 7000 0) ex_mu _ P Pm _ _ _).
    + apply pos_bz; lia.
    + vm_compute; reflexivity.
    + destruct (bz_dyadic 6000 0 ltac:(lia) ltac:(lia)) as [_ ->]. destruct (bz_dyadic 7000 0 ltac:(lia) ltac:(lia)) as [_ ->]. cbn. lra.
    + vm_compute; reflexivity.
Qed.
