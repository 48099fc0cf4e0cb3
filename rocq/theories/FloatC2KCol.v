(** * One column of cart_to_kep in rounded arithmetic, as a term over the reals (inclined, eccentric) *)
From Coq Require Import Reals QArith Qreals ZArith Lra Lia Psatz Bool List.
From Verif Require Import NP NPReal NPFloat FloatBase KeplerModel ConvModel ConvCols Spec RealBase KepReal CartReal FloatAcc FloatVec PropsFloat FloatC2K.
Import ListNotations.
Local Open Scope R_scope.

Section Form.
Context (p : Z) (Hp : (1 < p)%Z) (L : libm).
#[local] Instance NPc : NP num := NP_rd (rnd p) L.
Notation rd := (rnd p).
Context (x : six R) (mu : R).
Let r := pos x.
Let v := vel x.
Let rn := rnorm rd r.
Definition f_e0 := ecc_f rd r v mu (vx r) (vx v).
Definition f_e1 := ecc_f rd r v mu (vy r) (vy v).
Definition f_e2 := ecc_f rd r v mu (vz r) (vz v).
Definition f_en := rnorm rd (f_e0, f_e1, f_e2).
Definition f_hx := rd (rd (vy r * vz v) - rd (vz r * vy v)).
Definition f_hy := rd (rd (vz r * vx v) - rd (vx r * vz v)).
Definition f_hz := rd (rd (vx r * vy v) - rd (vy r * vx v)).
Definition f_hn := rnorm rd (f_hx, f_hy, f_hz).
Definition f_qi := rd (f_hz / f_hn).
Definition f_i := rd (l_acos L f_qi).
Definition f_nn := rnorm rd (- f_hy, f_hx, 0).
Definition f_qO := rd (- f_hy / f_nn).
Definition f_qo := clampR (rd (rd (rd (rd (- f_hy * f_e0) + rd (f_hx * f_e1)) + rd (0 * f_e2)) / rd (f_nn * f_en))).
Definition f_qn := clampR (rd (rd (rd (rd (f_e0 * vx r) + rd (f_e1 * vy r)) + rd (f_e2 * vz r)) / rd (f_en * rn))).
Definition flipF (b : bool) (a : R) : R := if b then rd (tp p - a) else a.
Definition f_a := rd (- mu / rd (2 * eps_f rd r v mu)).
Definition f_om := flipF (Rltb f_e2 0) (rd (l_acos L f_qo)).
Definition f_Om := flipF (Rltb f_hx 0) (rd (l_acos L f_qO)).
Definition f_nu := flipF (Rltb (rad_vel rd r v) 0) (rd (l_acos L f_qn)).
Definition il : R := rd (rd PI * rd (Q2R 1e-9)).

Lemma clamp1_rd t : clamp1 (Fin t) = Fin (clampR t).
Proof.
  unfold clamp1. change NPc with (NPf p L). rewrite f_1, f_m1 by auto.
  assert (T : forall a b, @ltb num (NPf p L) (Fin a) (Fin b) = if Rlt_dec a b then true else false) by reflexivity.
  rewrite T. unfold clampR, Rmax, Rmin. destruct (Rlt_dec 1 t) as [A|A]; rewrite T.
  - destruct (Rlt_dec 1 (-1)); [lra|]. destruct (Rle_dec 1 t); [|lra]. destruct (Rle_dec _ _); f_equal; lra.
  - destruct (Rlt_dec t (-1)), (Rle_dec 1 t); try destruct (Rle_dec _ _); f_equal; lra.
Qed.
Lemma flip_rd b t : flip b (Fin t) = Fin (flipF b t).
Proof. unfold flip, flipF. destruct b; reflexivity. Qed.
Lemma acos_rd q : -1 <= q <= 1 -> narccos (Fin q) = Fin (rd (l_acos L q)).
Proof. apply (f_acos p L). Qed.

Hypothesis Hrn : rn <> 0.
Hypothesis Hmu : mu <> 0.
Hypothesis Hhn : f_hn <> 0.
Hypothesis Hqi : -1 <= f_qi <= 1.
Hypothesis He : rd (Q2R 1e-9) < f_en < 1.
Hypothesis Hi : il < f_i < rd (rd PI - il).
Hypothesis Hnn : f_nn <> 0.
Hypothesis HqO : -1 <= f_qO <= 1.
Hypothesis Hd1 : rd (f_nn * f_en) <> 0.
Hypothesis Hd2 : rd (f_en * rn) <> 0.
Hypothesis Heps : rd (2 * eps_f rd r v mu) <> 0.

Lemma form_vr : vsum (vmul (vdivs (Fin (vx r), Fin (vy r), Fin (vz r)) (Fin rn)) (Fin (vx v), Fin (vy v), Fin (vz v))) = Fin (rad_vel rd r v).
Proof. unfold vsum, vmul, vdivs. cbn [c0 c1 c2 fst snd]. change NPc with (NPf p L). rewrite !(f_div p L) by exact Hrn. reflexivity. Qed.
Lemma form_ecc : ecc_el (Fin mu) (Fin (rnorm rd v)) (Fin rn) (Fin (rad_vel rd r v)) (Fin (vx r), Fin (vy r), Fin (vz r)) (Fin (vx v), Fin (vy v), Fin (vz v))
  = (Fin f_e0, Fin f_e1, Fin f_e2).
Proof.
  unfold ecc_el, vscale, vsub. cbn [c0 c1 c2 fst snd]. change NPc with (NPf p L). rewrite (f_1 p Hp L), !(f_div p L) by auto. reflexivity.
Qed.
Lemma col_form : c2k_col false (fin6 x) (Fin mu) = mk6 (Fin f_a) (Fin f_en) (Fin f_i) (Fin f_om) (Fin f_Om) (Fin f_nu).
Proof.
  unfold c2k_col, fin6, map6. cbn [s0 s1 s2 s3 s4 s5].
  change (Fin (s0 x), Fin (s1 x), Fin (s2 x)) with (Fin (vx r), Fin (vy r), Fin (vz r)).
  change (Fin (s3 x), Fin (s4 x), Fin (s5 x)) with (Fin (vx v), Fin (vy v), Fin (vz v)).
  assert (N : forall a b c, vnorm (Fin a, Fin b, Fin c) = Fin (rnorm rd (a, b, c))) by (intros; exact (f_norm p Hp L a b c)).
  rewrite !N. change (rnorm rd (vx r, vy r, vz r)) with rn. change (rnorm rd (vx v, vy v, vz v)) with (rnorm rd v).
  rewrite form_vr, form_ecc.
  assert (C : vcross (Fin (vx r), Fin (vy r), Fin (vz r)) (Fin (vx v), Fin (vy v), Fin (vz v)) = (Fin f_hx, Fin f_hy, Fin f_hz)) by reflexivity.
  rewrite C, !N. fold f_hn f_en.
  assert (Nd : vcross (lit 0, lit 0, lit 1) (Fin f_hx, Fin f_hy, Fin f_hz) = (Fin (- f_hy), Fin f_hx, Fin 0)).
  { apply (f_node p Hp L); apply fmt_rnd; lia. }
  rewrite Nd, !N. fold f_nn. cbn [c0 c1 c2 fst snd].
  assert (Dv : forall a b, b <> 0 -> div (Fin a) (Fin b) = Fin (rd (a / b))) by (intros; now apply (f_div p L)).
  rewrite (Dv f_hz f_hn) by auto. fold f_qi. rewrite (acos_rd f_qi) by auto. fold f_i.
  assert (Eg : (e_lim <? Fin f_en)%np = true).
  { change (Rltb (rd (Q2R 1e-9)) f_en = true). apply Rltb_true. lra. }
  assert (Ig : ((i_lim <? Fin f_i)%np && (Fin f_i <? npi - i_lim)%np) = true).
  { change (Rltb il f_i && Rltb f_i (rd (rd PI - il)) = true). rewrite !Rltb_true by lra. reflexivity. }
  rewrite Eg, Ig.
  assert (Hyp : (Fin f_en >=? lit 1)%np = false).
  { pose proof (f_1 p Hp L) as E1. change NPc with (NPf p L). rewrite E1. change (Rleb 1 f_en = false). apply Rleb_false. lra. }
  rewrite Hyp. rewrite (Dv (- f_hy) f_nn) by auto. fold f_qO. rewrite (acos_rd _ HqO), flip_rd.
  assert (S1 : vsum (vmul (Fin (- f_hy), Fin f_hx, Fin 0) (Fin f_e0, Fin f_e1, Fin f_e2))
    = Fin (rd (rd (rd (- f_hy * f_e0) + rd (f_hx * f_e1)) + rd (0 * f_e2)))) by reflexivity.
  assert (S2 : vsum (vmul (Fin f_e0, Fin f_e1, Fin f_e2) (Fin (vx r), Fin (vy r), Fin (vz r)))
    = Fin (rd (rd (rd (f_e0 * vx r) + rd (f_e1 * vy r)) + rd (f_e2 * vz r)))) by reflexivity.
  rewrite S1, S2.
  assert (M : forall a b, mul (Fin a) (Fin b) = Fin (rd (a * b))) by reflexivity.
  rewrite !(M f_nn f_en), !(M f_en rn), !Dv, !clamp1_rd by auto. rewrite !acos_rd by apply clampR_bound. rewrite !flip_rd.
  pose proof (f_0 p L) as Z0. change (lit 0) with (@lit num (NPf p L) 0). rewrite Z0.
  f_equal.
  assert (E2 : @lit num (NPf p L) 2 = Fin 2) by (rewrite f_lit; f_equal; now apply r2).
  assert (E5 : @lit num (NPf p L) 0.5 = Fin (rd (/ 2))) by (rewrite f_lit; do 2 f_equal; unfold Q2R; cbn; lra).
  change (lit 2) with (@lit num (NPf p L) 2). change (lit 0.5) with (@lit num (NPf p L) 0.5). rewrite E2, E5.
  transitivity (div (Fin (- mu)) (Fin (rd (2 * eps_f rd r v mu)))); [|now apply Dv].
  reflexivity.
Qed.
End Form.
