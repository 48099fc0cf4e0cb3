(** * C94: changing the units by powers of two changes no digit of a result. *)
From Coq Require Import Bool ZArith QArith Qreals Reals Lra Lia List Arith.
From Flocq Require Import Core.Core IEEE754.BinarySingleNaN.
From Verif Require Import NP NPReal NPFloat FloatBase KeplerModel ConvModel Lists ConvCols ArraySpec PropsArray.
Import ListNotations.
Local Open Scope R_scope.

(** the number 2^k x; infinities and NaN are kept *)
Definition scl (k : Z) (x : num) : num := match x with Fin t => Fin (bpow radix2 k * t) | _ => x end.
(** rounding keeps digits: it does not depend on the exponent *)
Definition digits (rd : R -> R) : Prop := forall k x, rd (bpow radix2 k * x) = bpow radix2 k * rd x.
Lemma digits_rnd p : Prec_gt_0 p -> digits (rnd p).
Proof.
  intros Hp k x. destruct (Req_dec x 0) as [-> |N]; [now rewrite Rmult_0_r, !(rnd_0 p), Rmult_0_r|].
  unfold rnd, round, scaled_mantissa, cexp. rewrite (Rmult_comm (bpow radix2 k)), (mag_mult_bpow radix2 x k N). unfold FLX_exp.
  replace (x * bpow radix2 k * bpow radix2 (- (mag radix2 x + k - p))) with (x * bpow radix2 (- (mag radix2 x - p))).
  - unfold F2R. cbn [Fnum Fexp]. replace (mag radix2 x + k - p)%Z with (k + (mag radix2 x - p))%Z by ring. rewrite bpow_plus. ring.
  - rewrite Rmult_assoc, <- bpow_plus. do 2 f_equal. ring.
Qed.
Lemma digits_exact : digits (fun x => x). Proof. intros k x. reflexivity. Qed.

Section Scale.
Context (rd : R -> R) (L : libm) (D : digits rd).
Notation N := (NP_rd rd L).
Local Notation bp k := (bpow radix2 k).
Lemma rd_00 : rd 0 = 0.
Proof using D. pose proof (D 1%Z 0) as H. rewrite Rmult_0_r in H. change (bp 1) with 2 in H. lra. Qed.
Lemma bp_pos k : 0 < bp k. Proof using Type. apply bpow_gt_0. Qed.
Definition sc (k : Z) (x' x : num) : Prop := x' = scl k x.
Lemma sc_refl x : sc 0 x x.
Proof using Type. unfold sc, scl. destruct x; auto. change (bp 0) with 1. now rewrite Rmult_1_l. Qed.
Lemma sc_eq x' x : sc 0 x' x -> x' = x.
Proof using Type. intros ->. symmetry. apply sc_refl. Qed.
Lemma sgn_scl k x (z p n : num) : num_sign (bp k * x) z p n = num_sign x z p n.
Proof using Type.
  unfold num_sign. pose proof (bp_pos k) as P. destruct (Rlt_dec 0 x) as [H|H].
  - destruct (Rlt_dec 0 (bp k * x)) as [|H']; auto. exfalso. apply H'. now apply Rmult_lt_0_compat.
  - destruct (Rlt_dec 0 (bp k * x)) as [H'|_]; [exfalso; nra|]. destruct (Rlt_dec x 0) as [G|G].
    + destruct (Rlt_dec (bp k * x) 0); auto. exfalso. nra.
    + destruct (Rlt_dec (bp k * x) 0); auto. exfalso. nra.
Qed.
Lemma rnum_scl k x : rnum rd (scl k x) = scl k (rnum rd x).
Proof using D. destruct x; cbn; auto. now rewrite D. Qed.
Lemma sign_scl k x a b c : scl k a = a -> scl k b = b -> scl k c = c -> scl k (num_sign x a b c) = num_sign x a b c.
Proof using Type. intros. unfold num_sign. destruct (Rlt_dec 0 x); auto. destruct (Rlt_dec x 0); auto. Qed.
Lemma neg_scl k x : (if Rlt_dec (bp k * x) 0 then true else false) = (if Rlt_dec x 0 then true else false).
Proof using Type. pose proof (bp_pos k). destruct (Rlt_dec (bp k * x) 0), (Rlt_dec x 0); auto; exfalso; nra. Qed.
Lemma if_neg {A} k x (a b : A) : (if Rlt_dec (bp k * x) 0 then a else b) = (if Rlt_dec x 0 then a else b).
Proof using Type. pose proof (neg_scl k x) as E. destruct (Rlt_dec (bp k * x) 0), (Rlt_dec x 0); auto; discriminate. Qed.

Lemma sc_mul k l m x' x y' y : sc k x' x -> sc l y' y -> m = (k + l)%Z -> sc m (@mul _ N x' y') (@mul _ N x y).
Proof using D.
  intros -> -> ->. unfold sc. cbn [mul NP_rd]. rewrite <- rnum_scl. f_equal.
  destruct x as [x| | |], y as [y| | |]; cbn [scl num_mul]; rewrite ?sgn_scl, ?sign_scl by reflexivity; try reflexivity.
  f_equal. rewrite bpow_plus. ring.
Qed.
Lemma sc_div k l m x' x y' y : sc k x' x -> sc l y' y -> m = (k - l)%Z -> sc m (@div _ N x' y') (@div _ N x y).
Proof using D.
  intros -> -> ->. unfold sc. cbn [div NP_rd]. rewrite <- rnum_scl. f_equal. pose proof (bp_pos l).
  destruct x as [x| | |], y as [y| | |]; cbn [scl num_div]; rewrite ?if_neg; try reflexivity; try (now rewrite Rmult_0_r); try (now destruct (Rlt_dec y 0)).
  rewrite sgn_scl. destruct (Req_EM_T y 0) as [-> |Z].
  - rewrite Rmult_0_r. destruct (Req_EM_T 0 0); [|lra]. now rewrite sign_scl.
  - destruct (Req_EM_T (bp l * y) 0) as [E|_]; [exfalso; nra|]. cbn [scl]. f_equal. unfold Zminus. rewrite bpow_plus, bpow_opp. field. split; lra.
Qed.
Lemma sc_opp k x' x : sc k x' x -> sc k (@opp _ N x') (@opp _ N x).
Proof using Type. intros ->. unfold sc. destruct x; cbn; auto. f_equal. ring. Qed.
Lemma sc_add k x' x y' y : sc k x' x -> sc k y' y -> sc k (@add _ N x' y') (@add _ N x y).
Proof using D.
  intros -> ->. unfold sc. cbn [add NP_rd]. rewrite <- rnum_scl. f_equal. destruct x, y; cbn; auto. f_equal. ring.
Qed.
Lemma sc_sub k x' x y' y : sc k x' x -> sc k y' y -> sc k (@sub _ N x' y') (@sub _ N x y).
Proof using D.
  intros -> ->. unfold sc. cbn [sub NP_rd]. rewrite <- rnum_scl. f_equal. destruct x, y; cbn; auto. f_equal. ring.
Qed.
Lemma sqrt_scl m x : sqrt (bp (2 * m) * x) = bp m * sqrt x.
Proof using Type.
  pose proof (bp_pos m) as P. replace (2 * m)%Z with (m + m)%Z by ring. rewrite bpow_plus, sqrt_mult_alt by (apply Rmult_le_pos; lra). now rewrite sqrt_square by lra.
Qed.
Lemma sc_sqrt k m x' x : sc k x' x -> k = (2 * m)%Z -> sc m (@nsqrt _ N x') (@nsqrt _ N x).
Proof using D.
  intros -> ->. unfold sc. cbn [nsqrt NP_rd]. rewrite <- rnum_scl. f_equal. destruct x; cbn [scl num_sqrt]; auto. rewrite if_neg, sqrt_scl. now destruct (Rlt_dec x 0).
Qed.
Lemma sc_neg k x' x : sc k x' x -> @ltb _ N x' (@lit _ N 0) = @ltb _ N x (@lit _ N 0).
Proof using D.
  intros ->. cbn [ltb lit NP_rd]. assert (Q2R 0 = 0) as -> by (unfold Q2R; cbn; lra). rewrite rd_00.
  destruct x; cbn; auto. unfold Rltb. apply if_neg.
Qed.
Lemma sc_pos k x' x : sc k x' x -> @leb _ N (@lit _ N 0) x' = @leb _ N (@lit _ N 0) x.
Proof using D.
  intros ->. cbn [leb lit NP_rd]. assert (Q2R 0 = 0) as -> by (unfold Q2R; cbn; lra). rewrite rd_00.
  destruct x; cbn; auto. unfold Rleb. pose proof (bp_pos k). destruct (Rle_dec 0 (bp k * x)), (Rle_dec 0 x); auto; exfalso; nra.
Qed.

(** vectors *)
Definition scv (k : Z) (a' a : @v3 num) : Prop := sc k (c0 a') (c0 a) /\ sc k (c1 a') (c1 a) /\ sc k (c2 a') (c2 a).
Lemma v_norm k a' a : scv k a' a -> sc k (@vnorm _ N a') (@vnorm _ N a).
Proof using D.
  intros (A & B & C). unfold vnorm, vsum, vmul. cbn [c0 c1 c2 fst snd]. apply (sc_sqrt (k + k) k); [|ring].
  repeat apply sc_add; eapply sc_mul; eauto.
Qed.
Lemma v_dot k l m a' a b' b : scv k a' a -> scv l b' b -> m = (k + l)%Z -> sc m (@vsum _ N (@vmul _ N a' b')) (@vsum _ N (@vmul _ N a b)).
Proof using D. intros (A & B & C) (E & F & G) H. unfold vsum, vmul. cbn [c0 c1 c2 fst snd]. repeat apply sc_add; eapply sc_mul; eauto. Qed.
Lemma v_divs k l m a' a t' t : scv k a' a -> sc l t' t -> m = (k - l)%Z -> scv m (@vdivs _ N a' t') (@vdivs _ N a t).
Proof using D. intros (A & B & C) E H. unfold scv, vdivs. cbn [c0 c1 c2 fst snd]. split; [|split]; eapply sc_div; eauto. Qed.
Lemma v_scale k l m a' a t' t : sc k t' t -> scv l a' a -> m = (k + l)%Z -> scv m (@vscale _ N t' a') (@vscale _ N t a).
Proof using D. intros E (A & B & C) H. unfold scv, vscale. cbn [c0 c1 c2 fst snd]. split; [|split]; eapply sc_mul; eauto. Qed.
Lemma v_sub k a' a b' b : scv k a' a -> scv k b' b -> scv k (@vsub _ N a' b') (@vsub _ N a b).
Proof using D. intros (A & B & C) (E & F & G). unfold scv, vsub. cbn [c0 c1 c2 fst snd]. split; [|split]; apply sc_sub; auto. Qed.
Lemma v_cross k l m a' a b' b : scv k a' a -> scv l b' b -> m = (k + l)%Z -> scv m (@vcross _ N a' b') (@vcross _ N a b).
Proof using D. intros (A & B & C) (E & F & G) H. unfold scv, vcross. cbn [c0 c1 c2 fst snd]. split; [|split]; apply sc_sub; eapply sc_mul; eauto. Qed.
Lemma v_refl (a : @v3 num) : scv 0 a a. Proof using Type. split; [|split]; apply sc_refl. Qed.

(** positions times 2^i, velocities times 2^j *)
Definition scx (i j : Z) (x : six num) : six num := mk6 (scl i (s0 x)) (scl i (s1 x)) (scl i (s2 x)) (scl j (s3 x)) (scl j (s4 x)) (scl j (s5 x)).
(** the semi-major axis (or periapsis of a parabola) times 2^i *)
Definition sck (i : Z) (k : six num) : six num := mk6 (scl i (s0 k)) (s1 k) (s2 k) (s3 k) (s4 k) (s5 k).

Lemma c2k_scale deg i j x mu : @c2k_col _ N deg (scx i j x) (scl (i + 2 * j) mu) = sck i (@c2k_col _ N deg x mu).
Proof using D.
  unfold c2k_col. cbv zeta. cbn [scx s0 s1 s2 s3 s4 s5].
  set (r' := (scl i (s0 x), scl i (s1 x), scl i (s2 x))). set (r := (s0 x, s1 x, s2 x)).
  set (v' := (scl j (s3 x), scl j (s4 x), scl j (s5 x))). set (v := (s3 x, s4 x, s5 x)).
  assert (Sr : scv i r' r) by (split; [|split]; reflexivity). assert (Sv : scv j v' v) by (split; [|split]; reflexivity).
  assert (Sm : sc (i + 2 * j) (scl (i + 2 * j) mu) mu) by reflexivity. set (mu' := scl (i + 2 * j) mu) in *. clearbody mu' r r' v v'.
  pose proof (v_norm _ _ _ Sr) as Srn. pose proof (v_norm _ _ _ Sv) as Svn. set (rn' := vnorm r') in *. set (rn := vnorm r) in *. set (vn' := vnorm v') in *. set (vn := vnorm v) in *.
  assert (Svr : sc j (@vsum _ N (@vmul _ N (@vdivs _ N r' rn') v')) (@vsum _ N (@vmul _ N (@vdivs _ N r rn) v))).
  { eapply v_dot; [eapply v_divs; eauto|eauto|lia]. }
  set (vr' := @vsum _ N (@vmul _ N (@vdivs _ N r' rn') v')) in *. set (vr := @vsum _ N (@vmul _ N (@vdivs _ N r rn) v)) in *.
  assert (Smr : sc (2 * j) (@div _ N mu' rn') (@div _ N mu rn)) by (eapply sc_div; eauto; lia).
  assert (Svv : sc (2 * j) (@sq _ N vn') (@sq _ N vn)) by (eapply sc_mul; eauto; lia).
  assert (Sep : sc (2 * j) (@sub _ N (@mul _ N (@sq _ N vn') (@lit _ N 0.5)) (@div _ N mu' rn')) (@sub _ N (@mul _ N (@sq _ N vn) (@lit _ N 0.5)) (@div _ N mu rn))).
  { apply sc_sub; auto. eapply sc_mul; [eauto|apply sc_refl|lia]. }
  assert (Se : scv 0 (@ecc_el _ N mu' vn' rn' vr' r' v') (@ecc_el _ N mu vn rn vr r v)).
  { unfold ecc_el. eapply (v_scale (- (i + 2 * j)) (i + 2 * j)); [eapply sc_div; [apply sc_refl|eauto|lia]| |lia].
    apply v_sub; [eapply (v_scale (2 * j) i); [now apply sc_sub|auto|lia]|eapply (v_scale (i + j) j); [eapply sc_mul; eauto|auto|lia]]. }
  assert (Ee : @ecc_el _ N mu' vn' rn' vr' r' v' = @ecc_el _ N mu vn rn vr r v).
  { destruct Se as (A & B & C). apply sc_eq in A, B, C. destruct (@ecc_el _ N mu' vn' rn' vr' r' v') as [[? ?] ?], (@ecc_el _ N mu vn rn vr r v) as [[? ?] ?].
    cbn [c0 c1 c2 fst snd] in *. now subst. }
  rewrite Ee. set (e := @ecc_el _ N mu vn rn vr r v) in *. clearbody e. clear Se Ee.
  pose proof (v_cross _ _ _ _ _ _ _ Sr Sv eq_refl) as Sh. set (h' := @vcross _ N r' v') in *. set (h := @vcross _ N r v) in *. clearbody h h'.
  assert (Ei : @div _ N (c2 h') (@vnorm _ N h') = @div _ N (c2 h) (@vnorm _ N h)).
  { apply sc_eq. eapply sc_div; [exact (proj2 (proj2 Sh))|exact (v_norm _ _ _ Sh)|lia]. }
  rewrite Ei. set (inc := @narccos _ N (@div _ N (c2 h) (@vnorm _ N h))).
  pose proof (v_cross _ _ _ _ _ _ _ (v_refl (@lit _ N 0, @lit _ N 0, @lit _ N 1)) Sh eq_refl) as Sn.
  set (n' := @vcross _ N (@lit _ N 0, @lit _ N 0, @lit _ N 1) h') in *. set (n := @vcross _ N (@lit _ N 0, @lit _ N 0, @lit _ N 1) h) in *. clearbody n n'.
  pose proof (v_norm _ _ _ Sn) as Snn. set (nn' := @vnorm _ N n') in *. set (nn := @vnorm _ N n) in *. set (o1 := @vnorm _ N e) in *.
  assert (E1 : @ltb _ N (c1 n') (@lit _ N 0) = @ltb _ N (c1 n) (@lit _ N 0)) by exact (sc_neg _ _ _ (proj1 (proj2 Sn))).
  assert (E2 : @div _ N (c0 n') nn' = @div _ N (c0 n) nn) by (apply sc_eq; eapply sc_div; [exact (proj1 Sn)|exact Snn|lia]).
  assert (E3 : @div _ N (@vsum _ N (@vmul _ N n' e)) (@mul _ N nn' o1) = @div _ N (@vsum _ N (@vmul _ N n e)) (@mul _ N nn o1)).
  { apply sc_eq. eapply sc_div; [eapply v_dot; [eauto|apply v_refl|reflexivity]|eapply sc_mul; [eauto|apply sc_refl|reflexivity]|lia]. }
  assert (E4 : @ltb _ N vr' (@lit _ N 0) = @ltb _ N vr (@lit _ N 0)) by (eapply sc_neg; eauto).
  assert (E5 : @div _ N (@vsum _ N (@vmul _ N e r')) (@mul _ N o1 rn') = @div _ N (@vsum _ N (@vmul _ N e r)) (@mul _ N o1 rn)).
  { apply sc_eq. eapply sc_div; [eapply v_dot; [apply v_refl|eauto|reflexivity]|eapply sc_mul; [apply sc_refl|eauto|reflexivity]|lia]. }
  assert (E6 : @ltb _ N (c2 r') (@lit _ N 0) = @ltb _ N (c2 r) (@lit _ N 0)) by exact (sc_neg _ _ _ (proj2 (proj2 Sr))).
  assert (E7 : @vsum _ N (@vmul _ N (@vdivs _ N n' nn') (@vdivs _ N r' rn')) = @vsum _ N (@vmul _ N (@vdivs _ N n nn) (@vdivs _ N r rn))).
  { apply sc_eq. eapply v_dot; [eapply v_divs; eauto|eapply v_divs; eauto|lia]. }
  assert (E8 : @leb _ N (@lit _ N 0) (c1 r') = @leb _ N (@lit _ N 0) (c1 r)) by exact (sc_pos _ _ _ (proj1 (proj2 Sr))).
  assert (E9 : @ltb _ N (c1 r') (@lit _ N 0) = @ltb _ N (c1 r) (@lit _ N 0)) by exact (sc_neg _ _ _ (proj1 (proj2 Sr))).
  assert (E10 : @div _ N (c0 r') rn' = @div _ N (c0 r) rn) by (apply sc_eq; eapply sc_div; [exact (proj1 Sr)|exact Srn|lia]).
  rewrite E1, E2, E3, E4, E5, E6, E7, E8, E9, E10. unfold sck. cbn [s0 s1 s2 s3 s4 s5]. f_equal.
  assert (A : sc i (@div _ N (@opp _ N mu') (@mul _ N (@lit _ N 2) (@sub _ N (@mul _ N (@sq _ N vn') (@lit _ N 0.5)) (@div _ N mu' rn'))))
                   (@div _ N (@opp _ N mu) (@mul _ N (@lit _ N 2) (@sub _ N (@mul _ N (@sq _ N vn) (@lit _ N 0.5)) (@div _ N mu rn))))).
  { eapply sc_div; [apply sc_opp; eauto|eapply sc_mul; [apply sc_refl|eauto|reflexivity]|lia]. }
  destruct (@leb _ N (@lit _ N 1) o1); [exact (sc_opp _ _ _ A)|exact A].
Qed.
Lemma edit_scale deg i k : @edit_col _ N deg (sck i k) = sck i (@edit_col _ N deg k).
Proof using D.
  unfold edit_col, sck, ang6. destruct deg; cbn [s0 s1 s2 s3 s4 s5]; f_equal; destruct (@ltb _ N (@lit _ N 1) (s1 k)); auto;
    change (sc i (@mul _ N (scl i (s0 k)) (@lit _ N (-1))) (@mul _ N (s0 k) (@lit _ N (-1)))); eapply sc_mul; try reflexivity; try apply sc_refl; lia.
Qed.
Lemma k2c_scale i j k mu : @k2c_col _ N (sck i k) (scl (i + 2 * j) mu) = scx i j (@k2c_col _ N k mu).
Proof using D.
  unfold k2c_col. cbv zeta. cbn [sck s0 s1 s2 s3 s4 s5].
  assert (Sm : sc (i + 2 * j) (scl (i + 2 * j) mu) mu) by reflexivity. set (mu' := scl (i + 2 * j) mu) in *. clearbody mu'.
  assert (Sa : sc i (scl i (s0 k)) (s0 k)) by reflexivity. set (a' := scl i (s0 k)) in *. clearbody a'.
  set (R0 := @euler_rotation_matrix _ N (s2 k) (s3 k) (s4 k) false). clearbody R0.
  assert (Sh : sc (i + j) (if @eqb _ N (s1 k) (@lit _ N 1) then @parabolic_total_angular_momentum _ N a' mu' else @orbit_total_angular_momentum _ N a' (s1 k) mu')
                          (if @eqb _ N (s1 k) (@lit _ N 1) then @parabolic_total_angular_momentum _ N (s0 k) mu else @orbit_total_angular_momentum _ N (s0 k) (s1 k) mu)).
  { destruct (@eqb _ N (s1 k) (@lit _ N 1)).
    - apply (sc_sqrt (2 * (i + j))); [|reflexivity]. eapply sc_mul; [eapply sc_mul; [eauto|apply sc_refl|reflexivity]|eauto|lia].
    - apply (sc_sqrt (2 * (i + j))); [|reflexivity]. eapply sc_mul; [eapply sc_mul; [eauto|eauto|reflexivity]|apply sc_refl|lia]. }
  set (h' := if @eqb _ N (s1 k) (@lit _ N 1) then @parabolic_total_angular_momentum _ N a' mu' else @orbit_total_angular_momentum _ N a' (s1 k) mu') in *.
  set (h := if @eqb _ N (s1 k) (@lit _ N 1) then @parabolic_total_angular_momentum _ N (s0 k) mu else @orbit_total_angular_momentum _ N (s0 k) (s1 k) mu) in *.
  clearbody h h'.
  assert (Sr : sc i (@orbital_distance _ N h' mu' (s1 k) (s5 k) false) (@orbital_distance _ N h mu (s1 k) (s5 k) false)).
  { unfold orbital_distance. eapply sc_div; [eapply sc_mul; eauto|eapply sc_mul; [eauto|apply sc_refl|reflexivity]|lia]. }
  set (r' := @orbital_distance _ N h' mu' (s1 k) (s5 k) false) in *. set (r := @orbital_distance _ N h mu (s1 k) (s5 k) false) in *. clearbody r r'.
  assert (Sv : sc j (@div _ N mu' h') (@div _ N mu h)) by (eapply sc_div; eauto; lia).
  assert (M : forall q m y' y, sc q y' y -> sc q (@mul _ N m y') (@mul _ N m y)) by (intros; eapply sc_mul; [apply sc_refl|eauto|lia]).
  assert (M' : forall q m y' y, sc q y' y -> sc q (@mul _ N y' m) (@mul _ N y m)) by (intros; eapply sc_mul; [eauto|apply sc_refl|lia]).
  unfold scx. cbn [s0 s1 s2 s3 s4 s5]. f_equal; (apply sc_add; apply M, M'; auto using sc_opp).
Qed.
End Scale.

(** ** The conversions: any argument, single orbits or arrays, radians or degrees *)
Definition on_in (f : six num -> six num) (x : kinput num) : kinput num :=
  match x with KNotArray => KNotArray | KZeroDim => KZeroDim | KBadRows b => KBadRows b | KVec c => KVec (f c) | KMat l => KMat (map f l) end.
Definition on_mu (f : num -> num) (mu : muarg num) : muarg num := match mu with MuS x => MuS (f x) | MuV l => MuV (map f l) end.
Definition on_res (f : six num -> six num) (r : res (kinput num)) : res (kinput num) := match r with Ok x => Ok (on_in f x) | Raise e => Raise e end.
Lemma map_repeat {A B} (f : A -> B) x n : map f (repeat x n) = repeat (f x) n.
Proof. induction n; cbn; congruence. Qed.
Lemma bcast_map f n mu : mu_bcast n (on_mu f mu) = match mu_bcast n mu with Ok l => Ok (map f l) | Raise e => Raise e end.
Proof.
  destruct mu as [x|l]; cbn [on_mu mu_bcast]; [now rewrite map_repeat|]. rewrite map_length. destruct (length l =? n)%nat; auto.
  destruct l as [|x [|y l]]; cbn; auto. now rewrite map_repeat.
Qed.
Lemma mask_map f n mu : mu_mask n (on_mu f mu) = match mu_mask n mu with Ok l => Ok (map f l) | Raise e => Raise e end.
Proof. destruct mu as [x|l]; cbn [on_mu mu_mask]; [now rewrite map_repeat|]. rewrite map_length. now destruct (length l =? n)%nat. Qed.
Lemma map2_scale {A B C A' B' C'} (f : A -> B -> C) (f' : A' -> B' -> C') (p : A -> A') (q : B -> B') (r : C -> C') l m :
  (forall x y, f' (p x) (q y) = r (f x y)) -> map2 f' (map p l) (map q m) = map r (map2 f l m).
Proof. intros H. revert m. induction l as [|x l IH]; intros [|y m]; cbn; auto. now rewrite H, IH. Qed.

(** Positions times 2^i, velocities times 2^j and mu times 2^(i+2j): the semi-major axis is multiplied by 2^i,
    the other elements are the same numbers; the same exception is raised.  [g], [g']: what np.empty returns. *)
Theorem C94_cart_to_kep : forall rd L i j x mu deg g g', digits rd ->
  snd (@cart_to_kep num (NP_rd rd L) g' (on_in (scx i j) x) (on_mu (scl (i + 2 * j)) mu) deg) = on_res (sck i) (snd (@cart_to_kep num (NP_rd rd L) g x mu deg)).
Proof.
  intros rd L i j x mu deg g g' D. destruct x as [| |b|c|l]; try reflexivity; cbn [on_in].
  - destruct (mu_bcast 1 mu) as [mus|e] eqn:E.
    + destruct (@cart_to_kep_vec num (NP_rd rd L) g c mu deg mus E) as (m & Em & ->).
      pose proof (bcast_map (scl (i + 2 * j)) 1 mu) as E'. rewrite E in E'.
      destruct (@cart_to_kep_vec num (NP_rd rd L) g' (scx i j c) _ deg _ E') as (m' & Em' & ->). subst mus. cbn [map] in Em'. assert (m' = scl (i + 2 * j) m) as -> by congruence.
      cbn [snd on_res on_in]. now rewrite (c2k_scale rd L D).
    + cbn [cart_to_kep]. rewrite bcast_map, E. reflexivity.
  - destruct (mu_bcast (length l) mu) as [mus|e] eqn:E.
    + rewrite (@cart_to_kep_mat num (NP_rd rd L) g l mu deg mus E).
      rewrite (@cart_to_kep_mat num (NP_rd rd L) g' (map (scx i j) l) (on_mu (scl (i + 2 * j)) mu) deg (map (scl (i + 2 * j)) mus)).
      * cbn [snd on_res on_in]. do 2 f_equal. apply map2_scale. intros. apply (c2k_scale rd L D).
      * rewrite map_length, bcast_map, E. reflexivity.
    + cbn [cart_to_kep]. rewrite map_length, bcast_map, E. reflexivity.
Qed.
(** The semi-major axis times 2^i and mu times 2^(i+2j): positions are multiplied by 2^i, velocities by 2^j *)
Theorem C94_kep_to_cart : forall rd L i j k mu deg g g', digits rd ->
  snd (@kep_to_cart num (NP_rd rd L) g' (on_in (sck i) k) (on_mu (scl (i + 2 * j)) mu) deg) = on_res (scx i j) (snd (@kep_to_cart num (NP_rd rd L) g k mu deg)).
Proof.
  intros rd L i j x mu deg g g' D. destruct x as [| |b|c|l]; try reflexivity; cbn [on_in].
  - destruct (mu_mask 1 mu) as [mus|e] eqn:E.
    + destruct (@kep_to_cart_vec num (NP_rd rd L) g c mu deg mus E) as (m & Em & ->).
      pose proof (mask_map (scl (i + 2 * j)) 1 mu) as E'. rewrite E in E'.
      destruct (@kep_to_cart_vec num (NP_rd rd L) g' (sck i c) _ deg _ E') as (m' & Em' & ->). subst mus. cbn [map] in Em'. assert (m' = scl (i + 2 * j) m) as -> by congruence.
      cbn [snd on_res on_in]. now rewrite (edit_scale rd L D), (k2c_scale rd L D).
    + cbn [kep_to_cart]. rewrite mask_map, E. reflexivity.
  - destruct (mu_mask (length l) mu) as [mus|e] eqn:E.
    + rewrite (@kep_to_cart_mat num (NP_rd rd L) g l mu deg mus E).
      rewrite (@kep_to_cart_mat num (NP_rd rd L) g' (map (sck i) l) (on_mu (scl (i + 2 * j)) mu) deg (map (scl (i + 2 * j)) mus)).
      * cbn [snd on_res on_in]. do 2 f_equal. apply map2_scale. intros. now rewrite (edit_scale rd L D), (k2c_scale rd L D).
      * rewrite map_length, mask_map, E. reflexivity.
    + cbn [kep_to_cart]. rewrite map_length, mask_map, E. reflexivity.
Qed.
(** periods are multiplied by 2^(i-j), speeds by 2^j *)
Theorem C94_period_speed : forall rd L i j a r mu, digits rd ->
  @orbital_period num (NP_rd rd L) (scl i a) (scl (i + 2 * j) mu) = scl (i - j) (@orbital_period num (NP_rd rd L) a mu) /\
  @orbital_speed num (NP_rd rd L) (scl i r) (scl i a) (scl (i + 2 * j) mu) = scl j (@orbital_speed num (NP_rd rd L) r a mu).
Proof.
  intros rd L i j a r mu D. split.
  - change (sc (i - j) (@orbital_period num (NP_rd rd L) (scl i a) (scl (i + 2 * j) mu)) (@orbital_period num (NP_rd rd L) a mu)).
    unfold orbital_period, cube. eapply (sc_mul rd L D 0 (i - j)); [apply sc_refl| |lia]. apply (sc_sqrt rd L D (2 * (i - j))); [|reflexivity].
    eapply (sc_div rd L D (i + i + i) (i + 2 * j)); [|reflexivity|lia]. eapply (sc_mul rd L D); [|reflexivity|reflexivity]. eapply (sc_mul rd L D); reflexivity.
  - change (sc j (@orbital_speed num (NP_rd rd L) (scl i r) (scl i a) (scl (i + 2 * j) mu)) (@orbital_speed num (NP_rd rd L) r a mu)).
    unfold orbital_speed. apply (sc_sqrt rd L D (2 * j)); [|reflexivity]. eapply (sc_mul rd L D (i + 2 * j) (- i)); [reflexivity| |lia].
    apply (sc_sub rd L D); eapply (sc_div rd L D 0 i); try apply sc_refl; try reflexivity; lia.
Qed.
(** lengths times 2^10, speeds divided by 8: a = 7, mu = 398600 becomes a = 7 2^10, mu = 398600 2^4 *)
Example C94_example : forall p L g g', Prec_gt_0 p ->
  snd (@kep_to_cart num (NP_rd (rnd p) L) g' (KVec (sck 10 (mk6 (Fin 7) (Fin (/ 2)) (Fin 1) (Fin 1) (Fin 1) (Fin 1)))) (MuS (scl 4 (Fin 398600))) true)
  = on_res (scx 10 (-3)) (snd (@kep_to_cart num (NP_rd (rnd p) L) g (KVec (mk6 (Fin 7) (Fin (/ 2)) (Fin 1) (Fin 1) (Fin 1) (Fin 1))) (MuS (Fin 398600)) true)).
Proof. intros p L g g' Hp. exact (C94_kep_to_cart (rnd p) L 10 (-3) (KVec _) (MuS _) true g g' (digits_rnd p Hp)). Qed.
