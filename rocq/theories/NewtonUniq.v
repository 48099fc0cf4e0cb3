(** * Newton's two-body equation has one solution through a state of non-zero angular momentum *)
From Coq Require Import Reals Lra Lia.
From Coquelicot Require Import Coquelicot.
From Verif Require Import NP NPReal Spec RealBase KepReal PropsKep PropsNewton FloatVec.
Local Open Scope R_scope.

(** Newton's law on the open time interval (lo, hi) only *)
Definition newton_on (mu lo hi : R) (X : R -> six R) : Prop := forall t, lo < t < hi ->
  deriv3 (fun u => pos (X u)) t (vel (X t))
  /\ deriv3 (fun u => vel (X u)) t
       (scal3 (- mu / (norm (pos (X t)) * norm (pos (X t)) * norm (pos (X t)))) (pos (X t))).
Lemma newton_all mu X lo hi : newton mu X -> newton_on mu lo hi X.
Proof. intros H t _. apply H. Qed.

(** ** Functions with a sign condition on the derivative *)
Lemma const_on (f : R -> R) lo hi s t : (forall u, lo < u < hi -> is_derive f u 0) -> lo < s < hi -> lo < t < hi -> f t = f s.
Proof.
  intros H Hs Ht. destruct (Rtotal_order s t) as [L|[->|L]]; [|reflexivity|].
  - destruct (MVT_cor2 f (fun _ => 0) s t L) as [c [E _]]; [intros c Hc; apply is_derive_Reals, H; lra|lra].
  - destruct (MVT_cor2 f (fun _ => 0) t s L) as [c [E _]]; [intros c Hc; apply is_derive_Reals, H; lra|lra].
Qed.
(** Gronwall: a non-negative function with |f'| <= c f that vanishes once vanishes everywhere *)
Lemma gronwall (f f' : R -> R) c lo hi s t : (forall u, lo < u < hi -> is_derive f u (f' u) /\ Rabs (f' u) <= c * f u /\ 0 <= f u) ->
  lo < s < hi -> lo < t < hi -> f s = 0 -> f t = 0.
Proof.
  intros H Hs Ht Z. destruct (H t Ht) as (_ & _ & Pt).
  destruct (Rtotal_order s t) as [L|[<-|L]]; [|auto|].
  - destruct (MVT_cor2 (fun u => f u * exp (- c * u)) (fun u => (f' u - c * f u) * exp (- c * u)) s t L) as [r [E Hr]].
    { intros r Hr. apply is_derive_Reals. destruct (H r ltac:(lra)) as (D & _ & _).
      pose proof (is_derive_unique _ _ _ D) as U. auto_derive; [exact (ex_intro _ _ D)|]. change (fun x => f x) with f. rewrite U. ring. }
    destruct (H r ltac:(lra)) as (_ & B & _). rewrite Z, Rmult_0_l in E.
    pose proof (exp_pos (- c * r)) as E1. pose proof (exp_pos (- c * t)) as E2.
    assert (Q : (f' r - c * f r) * exp (- c * r) * (t - s) <= 0).
    { assert (B' : f' r - c * f r <= 0) by (pose proof (Rle_abs (f' r)); lra).
      assert (0 <= (c * f r - f' r) * exp (- c * r) * (t - s)) by (apply Rmult_le_pos; [apply Rmult_le_pos|]; lra). lra. }
    assert (f t * exp (- c * t) <= 0) by lra. nra.
  - destruct (MVT_cor2 (fun u => f u * exp (c * u)) (fun u => (f' u + c * f u) * exp (c * u)) t s L) as [r [E Hr]].
    { intros r Hr. apply is_derive_Reals. destruct (H r ltac:(lra)) as (D & _ & _).
      pose proof (is_derive_unique _ _ _ D) as U. auto_derive; [exact (ex_intro _ _ D)|]. change (fun x => f x) with f. rewrite U. ring. }
    destruct (H r ltac:(lra)) as (_ & B & _). rewrite Z, Rmult_0_l in E.
    pose proof (exp_pos (c * r)) as E1. pose proof (exp_pos (c * t)) as E2.
    assert (B' : 0 <= f' r + c * f r) by (pose proof (Rle_abs (- f' r)); rewrite Rabs_Ropp in *; lra).
    assert (Q : 0 <= (f' r + c * f r) * exp (c * r) * (s - t)) by (apply Rmult_le_pos; [apply Rmult_le_pos|]; lra).
    assert (f t * exp (c * t) <= 0) by lra. nra.
Qed.

(** ** Conserved quantities of a solution *)
Ltac exd := repeat lazymatch goal with |- _ /\ _ => split end; try exact I; try (eexists; eassumption); auto.
Lemma energy3 (f g h f' g' h' : R -> R) m t : let r := sqrt (f t * f t + g t * g t + h t * h t) in 0 < f t * f t + g t * g t + h t * h t ->
  is_derive f t (f' t) -> is_derive g t (g' t) -> is_derive h t (h' t) ->
  is_derive f' t (- m / (r * r * r) * f t) -> is_derive g' t (- m / (r * r * r) * g t) -> is_derive h' t (- m / (r * r * r) * h t) ->
  is_derive (fun u => (f' u * f' u + g' u * g' u + h' u * h' u) / 2 - m / sqrt (f u * f u + g u * g u + h u * h u)) t 0.
Proof.
  intros r P A B C D E F.
  pose proof (is_derive_unique _ _ _ A) as UA. pose proof (is_derive_unique _ _ _ B) as UB. pose proof (is_derive_unique _ _ _ C) as UC.
  pose proof (is_derive_unique _ _ _ D) as UD. pose proof (is_derive_unique _ _ _ E) as UE. pose proof (is_derive_unique _ _ _ F) as UF.
  assert (R0 : 0 < r) by (apply sqrt_lt_R0; lra).
  auto_derive; [exd; fold r; lra|].
  change (fun x => f x) with f. change (fun x => g x) with g. change (fun x => h x) with h.
  change (fun x => f' x) with f'. change (fun x => g' x) with g'. change (fun x => h' x) with h'.
  rewrite UA, UB, UC, UD, UE, UF. fold r. field. lra.
Qed.
Lemma gap3 (f f' F F' : R -> R) t a b A B : is_derive f t a -> is_derive F t A -> is_derive f' t b -> is_derive F' t B ->
  is_derive (fun u => (f u - F u) * (f u - F u) + (f' u - F' u) * (f' u - F' u)) t (2 * ((f t - F t) * (a - A)) + 2 * ((f' t - F' t) * (b - B))).
Proof.
  intros HA HB HC HD. pose proof (is_derive_unique _ _ _ HA) as UA. pose proof (is_derive_unique _ _ _ HB) as UB.
  pose proof (is_derive_unique _ _ _ HC) as UC. pose proof (is_derive_unique _ _ _ HD) as UD.
  auto_derive; [exd|]. change (fun x => f x) with f. change (fun x => F x) with F. change (fun x => f' x) with f'. change (fun x => F' x) with F'.
  rewrite UA, UB, UC, UD. ring.
Qed.
Section Conserved.
Context (mu lo hi : R) (X : R -> six R) (HX : newton_on mu lo hi X) (Hmu : 0 < mu).
Let rr t := norm (pos (X t)).
Lemma comps t : lo < t < hi ->
  is_derive (fun u => s0 (X u)) t (s3 (X t)) /\ is_derive (fun u => s1 (X u)) t (s4 (X t)) /\ is_derive (fun u => s2 (X u)) t (s5 (X t))
  /\ is_derive (fun u => s3 (X u)) t (- mu / (rr t * rr t * rr t) * s0 (X t))
  /\ is_derive (fun u => s4 (X u)) t (- mu / (rr t * rr t * rr t) * s1 (X t))
  /\ is_derive (fun u => s5 (X u)) t (- mu / (rr t * rr t * rr t) * s2 (X t)).
Proof. intros Ht. destruct (HX t Ht) as [(A & B & C) (D & E & F)]. refine (conj _ (conj _ (conj _ (conj _ (conj _ _))))); apply is_derive_Reals; assumption. Qed.
Lemma cross2 (f g f' g' : R -> R) q t : is_derive f t (f' t) -> is_derive g t (g' t) -> is_derive f' t (q * f t) -> is_derive g' t (q * g t) ->
  is_derive (fun u => f u * g' u - g u * f' u) t 0.
Proof.
  intros A B C D. pose proof (is_derive_unique _ _ _ A) as UA. pose proof (is_derive_unique _ _ _ B) as UB.
  pose proof (is_derive_unique _ _ _ C) as UC. pose proof (is_derive_unique _ _ _ D) as UD.
  auto_derive; [exd|].
  change (fun x => f x) with f. change (fun x => g x) with g. change (fun x => f' x) with f'. change (fun x => g' x) with g'.
  rewrite UA, UB, UC, UD. ring.
Qed.
Lemma ang_const s t : lo < s < hi -> lo < t < hi -> ang_mom (X t) = ang_mom (X s).
Proof.
  intros Hs Ht.
  assert (H0 : s1 (X t) * s5 (X t) - s2 (X t) * s4 (X t) = s1 (X s) * s5 (X s) - s2 (X s) * s4 (X s)).
  { apply (const_on (fun u => s1 (X u) * s5 (X u) - s2 (X u) * s4 (X u)) lo hi s t); auto. intros u Hu.
    destruct (comps u Hu) as (A & B & C & D & E & F). exact (cross2 _ _ _ _ _ u B C E F). }
  assert (H1 : s2 (X t) * s3 (X t) - s0 (X t) * s5 (X t) = s2 (X s) * s3 (X s) - s0 (X s) * s5 (X s)).
  { apply (const_on (fun u => s2 (X u) * s3 (X u) - s0 (X u) * s5 (X u)) lo hi s t); auto. intros u Hu.
    destruct (comps u Hu) as (A & B & C & D & E & F). exact (cross2 _ _ _ _ _ u C A F D). }
  assert (H2 : s0 (X t) * s4 (X t) - s1 (X t) * s3 (X t) = s0 (X s) * s4 (X s) - s1 (X s) * s3 (X s)).
  { apply (const_on (fun u => s0 (X u) * s4 (X u) - s1 (X u) * s3 (X u)) lo hi s t); auto. intros u Hu.
    destruct (comps u Hu) as (A & B & C & D & E & F). exact (cross2 _ _ _ _ _ u A B D E). }
  unfold ang_mom, cross, pos, vel, vx, vy, vz. cbn [fst snd]. now rewrite H0, H1, H2.
Qed.
Lemma pos_nz s t : lo < s < hi -> lo < t < hi -> ang_mom (X s) <> (0, 0, 0) -> 0 < rr t.
Proof.
  intros Hs Ht Hn. unfold rr, norm. destruct (Rle_lt_or_eq_dec 0 _ (sqrt_pos (dot (pos (X t)) (pos (X t))))) as [L|L]; [auto|].
  exfalso. apply Hn. rewrite <- (ang_const s t Hs Ht). symmetry in L.
  assert (D0 : 0 <= dot (pos (X t)) (pos (X t))) by (unfold dot; nra).
  apply sqrt_eq_0 in L; [|auto]. unfold dot, pos, vx, vy, vz in L. cbn [fst snd] in L.
  assert (s0 (X t) = 0) by nra. assert (s1 (X t) = 0) by nra. assert (s2 (X t) = 0) by nra.
  unfold ang_mom, cross, pos, vel, vx, vy, vz. cbn [fst snd]. rewrite H, H0, H1. f_equal; [f_equal|]; ring.
Qed.
Lemma energy_const s t : lo < s < hi -> lo < t < hi -> ang_mom (X s) <> (0, 0, 0) -> energy mu (X t) = energy mu (X s).
Proof.
  intros Hs Ht Hn. refine (const_on (fun u => energy mu (X u)) lo hi s t _ Hs Ht). intros u Hu.
  destruct (comps u Hu) as (A & B & C & D & E & F). pose proof (pos_nz s u Hs Hu Hn) as P.
  assert (P2 : 0 < dot (pos (X u)) (pos (X u))). { unfold rr, norm in P. apply sqrt_lt_0_alt. now rewrite sqrt_0. }
  exact (energy3 (fun u => s0 (X u)) (fun u => s1 (X u)) (fun u => s2 (X u)) (fun u => s3 (X u)) (fun u => s4 (X u)) (fun u => s5 (X u)) mu u P2 A B C D E F).
Qed.
Lemma rmin s : lo < s < hi -> ang_mom (X s) <> (0, 0, 0) -> exists rho, 0 < rho /\ forall t, lo < t < hi -> rho <= rr t.
Proof.
  intros Hs Hn. set (h := dot (ang_mom (X s)) (ang_mom (X s))). set (en := energy mu (X s)).
  assert (Hh : 0 < h).
  { assert (H0 : 0 <= h) by (unfold h, dot; nra). destruct H0 as [H0|H0]; [auto|]. exfalso. apply Hn.
    unfold h, dot in H0. destruct (ang_mom (X s)) as [[a b] c]. unfold vx, vy, vz in H0. cbn [fst snd] in H0.
    assert (a = 0) by nra. assert (b = 0) by nra. assert (c = 0) by nra. congruence. }
  pose proof (Rabs_pos en) as Pe. set (q := h / (2 * (Rabs en + mu))). assert (Hq : 0 < q) by (apply Rdiv_lt_0_compat; lra).
  exists (Rmin 1 q). split; [apply Rmin_pos; lra|]. intros t Ht. pose proof (pos_nz s t Hs Ht Hn) as Pr.
  destruct (Rle_dec 1 (rr t)) as [L|L]; [eapply Rle_trans; [apply Rmin_l|auto]|]. eapply Rle_trans; [apply Rmin_r|].
  assert (En : dot (vel (X t)) (vel (X t)) / 2 - mu / rr t = en) by exact (energy_const s t Hs Ht Hn).
  assert (Hc : h = dot (ang_mom (X t)) (ang_mom (X t))) by (unfold h; now rewrite (ang_const s t Hs Ht)).
  assert (R2 : rr t * rr t = dot (pos (X t)) (pos (X t))) by (apply sqrt_sqrt; unfold dot; nra).
  assert (Lg : h <= dot (pos (X t)) (pos (X t)) * dot (vel (X t)) (vel (X t))).
  { rewrite Hc. assert (LI : forall a b, dot (cross a b) (cross a b) = dot a a * dot b b - dot a b * dot a b) by (intros; unfold dot, cross, vx, vy, vz; cbn [fst snd]; ring).
    unfold ang_mom. rewrite LI. nra. }
  set (r := rr t) in *. set (v2 := dot (vel (X t)) (vel (X t))) in *. rewrite <- R2 in Lg.
  assert (V : r * v2 = 2 * (en * r + mu)) by (rewrite <- En; field; lra).
  assert (h <= 2 * (en * r + mu) * r) by (rewrite <- V; lra).
  assert (en * r <= Rabs en) by (pose proof (Rle_abs en); nra).
  unfold q. apply (Rmult_le_reg_r (2 * (Rabs en + mu))); [lra|]. unfold Rdiv. rewrite Rmult_assoc, Rinv_l by lra. nra.
Qed.
End Conserved.

(** ** The attraction is Lipschitz away from the centre *)
Lemma grav_lip mu (x y : vec) rho : 0 < mu -> 0 < rho -> rho <= norm x -> rho <= norm y ->
  norm (minus3 (scal3 (- mu / (norm x * norm x * norm x)) x) (scal3 (- mu / (norm y * norm y * norm y)) y))
  <= 4 * mu / (rho * rho * rho) * norm (minus3 x y).
Proof.
  intros Hm Hr Hx Hy. pose proof (norm_diff x y) as Dn. set (d := norm (minus3 x y)) in *. set (a := norm x) in *. set (b := norm y) in *.
  assert (D0 : 0 <= d) by apply sqrt_pos.
  set (g := - mu / (a * a * a)). set (g' := - mu / (b * b * b)).
  assert (E : minus3 (scal3 g x) (scal3 g' y) = plus3 (scal3 g (minus3 x y)) (scal3 (g - g') y)).
  { unfold minus3, plus3, scal3, vx, vy, vz. cbn [fst snd]. f_equal; [f_equal|]; ring. }
  assert (NS : forall c v, norm (scal3 c v) = Rabs c * norm v).
  { intros c v. unfold norm. replace (dot (scal3 c v) (scal3 c v)) with (Rsqr c * dot v v) by (unfold dot, scal3, vx, vy, vz, Rsqr; cbn [fst snd]; ring).
    rewrite sqrt_mult; [now rewrite sqrt_Rsqr_abs|apply Rle_0_sqr|unfold dot; nra]. }
  rewrite E. eapply Rle_trans; [apply norm_tri|]. rewrite !NS. fold d b.
  assert (Ha3 : 0 < a * a * a) by (repeat apply Rmult_lt_0_compat; lra).
  assert (Hb3 : 0 < b * b * b) by (repeat apply Rmult_lt_0_compat; lra).
  assert (Hr3 : 0 < rho * rho * rho) by (repeat apply Rmult_lt_0_compat; lra).
  assert (I : forall x y z, rho <= x -> rho <= y -> rho <= z -> / (x * y * z) <= / (rho * rho * rho)).
  { intros u v w Hu Hv Hw. apply Rinv_le_contravar; [auto|]. repeat apply Rmult_le_compat; try lra. nra. }
  assert (G1 : Rabs g <= mu / (rho * rho * rho)).
  { unfold g, Rdiv. rewrite Rabs_mult, Rabs_Ropp, (Rabs_pos_eq mu), Rabs_pos_eq by (try lra; apply Rlt_le, Rinv_0_lt_compat; auto).
    apply Rmult_le_compat_l; [lra|]. apply I; auto. }
  assert (G2 : Rabs (g - g') * b <= 3 * mu / (rho * rho * rho) * d).
  { assert (Q : (g - g') * b = mu * (a - b) * (/ (a * a * a) + / (a * a * b) + / (a * b * b))) by (unfold g, g'; field; lra).
    rewrite <- (Rabs_pos_eq b) at 1 by lra. rewrite <- Rabs_mult, Q, !Rabs_mult, (Rabs_pos_eq mu) by lra.
    assert (S : Rabs (/ (a * a * a) + / (a * a * b) + / (a * b * b)) <= 3 * / (rho * rho * rho)).
    { rewrite Rabs_pos_eq.
      - pose proof (I a a a Hx Hx Hx). pose proof (I a a b Hx Hx Hy). pose proof (I a b b Hx Hy Hy). lra.
      - assert (0 < a * a * b) by (repeat apply Rmult_lt_0_compat; lra). assert (0 < a * b * b) by (repeat apply Rmult_lt_0_compat; lra).
        repeat apply Rplus_le_le_0_compat; apply Rlt_le, Rinv_0_lt_compat; auto. }
    replace (3 * mu / (rho * rho * rho) * d) with (mu * d * (3 * / (rho * rho * rho))) by (unfold Rdiv; ring).
    apply Rmult_le_compat; [apply Rmult_le_pos; [lra|apply Rabs_pos]|apply Rabs_pos|apply Rmult_le_compat_l; lra|auto]. }
  assert (G3 : Rabs g * d <= mu / (rho * rho * rho) * d) by (apply Rmult_le_compat_r; auto).
  replace (4 * mu / (rho * rho * rho) * d) with (mu / (rho * rho * rho) * d + 3 * mu / (rho * rho * rho) * d) by (unfold Rdiv; ring). lra.
Qed.

(** ** Uniqueness *)
Definition gap (x y : six R) : R :=
  dot (minus3 (pos x) (pos y)) (minus3 (pos x) (pos y)) + dot (minus3 (vel x) (vel y)) (minus3 (vel x) (vel y)).
Lemma gap_0 x y : gap x y = 0 -> x = y.
Proof.
  destruct x as [a b c d e f], y as [a' b' c' d' e' f']. unfold gap, dot, minus3, pos, vel, vx, vy, vz. cbn [fst snd s0 s1 s2 s3 s4 s5]. intros H.
  assert (Z : forall v, 0 <= v * v) by (intros; apply Rle_0_sqr).
  assert (Q : forall v w, v * v = 0 -> v = w - w) by (intros v w E; apply Rmult_integral in E; lra).
  pose proof (Z (a - a')). pose proof (Z (b - b')). pose proof (Z (c - c')). pose proof (Z (d - d')). pose proof (Z (e - e')). pose proof (Z (f - f')).
  f_equal; apply Rminus_diag_uniq; rewrite <- (Rminus_diag_eq 0 0 eq_refl); apply Q; lra.
Qed.
Theorem newton_unique mu lo hi X Y s t : 0 < mu -> newton_on mu lo hi X -> newton_on mu lo hi Y -> lo < s < hi -> lo < t < hi ->
  X s = Y s -> ang_mom (X s) <> (0, 0, 0) -> X t = Y t.
Proof.
  intros Hm HX HY Hs Ht E Hn. apply gap_0.
  destruct (rmin mu lo hi X HX Hm s Hs Hn) as [r1 [R1 P1]]. rewrite E in Hn. destruct (rmin mu lo hi Y HY Hm s Hs Hn) as [r2 [R2 P2]].
  set (rho := Rmin r1 r2). assert (Hr : 0 < rho) by (apply Rmin_pos; auto).
  set (K := 4 * mu / (rho * rho * rho)).
  assert (K0 : 0 < K) by (apply Rdiv_lt_0_compat; [lra|repeat apply Rmult_lt_0_compat; auto]).
  pose (ac := fun (Z : R -> six R) u => scal3 (- mu / (norm (pos (Z u)) * norm (pos (Z u)) * norm (pos (Z u)))) (pos (Z u))).
  refine (gronwall (fun u => gap (X u) (Y u)) (fun u => 2 * dot (minus3 (pos (X u)) (pos (Y u))) (minus3 (vel (X u)) (vel (Y u)))
     + 2 * dot (minus3 (vel (X u)) (vel (Y u))) (minus3 (ac X u) (ac Y u))) (1 + K) lo hi s t _ Hs Ht _).
  2:{ rewrite E. unfold gap, dot, minus3, vx, vy, vz. cbn [fst snd]. ring. }
  intros u Hu. split; [|split].
  - destruct (comps mu lo hi X HX u Hu) as (A & B & C & D & F & G). destruct (comps mu lo hi Y HY u Hu) as (A' & B' & C' & D' & F' & G').
    pose proof (gap3 _ _ _ _ u _ _ _ _ A A' D D') as G1. pose proof (gap3 _ _ _ _ u _ _ _ _ B B' F F') as G2. pose proof (gap3 _ _ _ _ u _ _ _ _ C C' G G') as G3.
    pose proof (is_derive_plus _ _ u _ _ (is_derive_plus _ _ u _ _ G1 G2) G3) as GG.
    eapply is_derive_ext; [|evar_last; [exact GG|]].
    + intros v. unfold gap, dot, minus3, pos, vel, vx, vy, vz, plus. cbn. ring.
    + unfold ac, dot, minus3, scal3, pos, vel, vx, vy, vz, plus. cbn. ring.
  - pose proof (grav_lip mu (pos (X u)) (pos (Y u)) rho Hm Hr ltac:(eapply Rle_trans; [apply Rmin_l|now apply P1]) ltac:(eapply Rle_trans; [apply Rmin_r|now apply P2])) as GL.
    fold (ac X u) (ac Y u) K in GL. unfold gap.
    set (dx := minus3 (pos (X u)) (pos (Y u))) in *. set (dv := minus3 (vel (X u)) (vel (Y u))) in *. set (da := minus3 (ac X u) (ac Y u)) in *.
    pose proof (dot_abs dx dv) as Q1. pose proof (dot_abs dv da) as Q2.
    assert (N1 : norm dx * norm dx = dot dx dx) by (apply sqrt_sqrt; unfold dot; nra).
    assert (N2 : norm dv * norm dv = dot dv dv) by (apply sqrt_sqrt; unfold dot; nra). rewrite <- N1, <- N2.
    assert (M1 : 0 <= norm dx) by apply sqrt_pos. assert (M2 : 0 <= norm dv) by apply sqrt_pos.
    assert (T : Rabs (2 * dot dx dv + 2 * dot dv da) <= 2 * (norm dx * norm dv) + 2 * (norm dv * norm da)).
    { eapply Rle_trans; [apply Rabs_triang|]. rewrite !Rabs_mult, (Rabs_pos_eq 2) by lra. lra. }
    assert (norm dv * norm da <= norm dv * (K * norm dx)) by (apply Rmult_le_compat_l; auto).
    assert (Sq : 2 * (norm dx * norm dv) <= norm dx * norm dx + norm dv * norm dv) by (pose proof (Rle_0_sqr (norm dx - norm dv)) as Z; unfold Rsqr in Z; lra).
    assert (K * (2 * (norm dx * norm dv)) <= K * (norm dx * norm dx + norm dv * norm dv)) by (apply Rmult_le_compat_l; lra).
    lra.
  - unfold gap, dot. nra.
Qed.
