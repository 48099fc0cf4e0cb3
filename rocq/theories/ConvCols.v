(** * The array level conversions are column-wise (any arithmetic) *)
From Coq Require Import List Bool Arith Lia ZArith QArith.
From Verif Require Import NP KeplerModel ConvModel Lists.
Import ListNotations.

Section Cols.
Context {F : Type} `{NP F}.
Local Open Scope np_scope.

Definition clamp1 (x : F) : F :=
  let x := if x >? lit 1 then lit 1 else x in if x <? lit (-1) then lit (-1) else x.
Lemma clamp_map {X} (f : X -> F) L : clamp (map f L) = map (fun x => clamp1 (f x)) L.
Proof. unfold clamp, clamp1. now rewrite !map_map, mset_s_map, map_map, mset_s_map. Qed.
Lemma flip_map {X} (b : X -> bool) (f : X -> F) L :
  flip2pi (map b L) (map f L) = map (fun x => if b x then n2pi - f x else f x) L.
Proof. unfold flip2pi. now rewrite mget_map, map_map, mset_map. Qed.

Definition flip (b : bool) (x : F) : F := if b then n2pi - x else x.

(** one column of cart_to_kep *)
Definition c2k_col (deg : bool) (c : six F) (mu : F) : six F :=
  let r := (s0 c, s1 c, s2 c) in
  let v := (s3 c, s4 c, s5 c) in
  let rn := vnorm r in
  let vn := vnorm v in
  let vr := vsum (vmul (vdivs r rn) v) in
  let eps := sq vn * lit 0.5 - mu/rn in
  let e := ecc_el mu vn rn vr r v in
  let o1 := vnorm e in
  let a := (- mu)/(lit 2 * eps) in
  let o0 := if o1 >=? lit 1 then - a else a in
  let h := vcross r v in
  let o2 := narccos (c2 h/vnorm h) in
  let eg := o1 >? e_lim in
  let ig := (o2 >? i_lim) && (o2 <? npi - i_lim) in
  let n := vcross (lit 0, lit 0, lit 1) h in
  let nn := vnorm n in
  let o4 := if ig then flip (c1 n <? lit 0) (narccos (c0 n/nn)) else lit 0 in
  let o3 := if eg then
              if ig then flip (c2 e <? lit 0) (narccos (clamp1 (vsum (vmul n e) / (nn * o1))))
              else flip ((o2 >? npi * lit 0.5) && (c1 e >=? lit 0))
                     (flip ((o2 <? npi * lit 0.5) && (c1 e <? lit 0))
                        (narccos (clamp1 (c0 e / o1))))
            else lit 0 in
  let o5 := if eg then flip (vr <? lit 0) (narccos (clamp1 (vsum (vmul e r) / (o1 * rn))))
            else if ig then flip (c2 r <? lit 0)
                              (narccos (clamp1 (vsum (vmul (vdivs n nn) (vdivs r rn)))))
            else flip ((o2 >? npi * lit 0.5) && (c1 r >=? lit 0))
                   (flip ((o2 <? npi * lit 0.5) && (c1 r <? lit 0))
                      (narccos (clamp1 (c0 r / rn)))) in
  let d := fun x => if deg then degrees x else x in
  mk6 o0 o1 (d o2) (d o3) (d o4) (d o5).

(** one let-binding of array code: rewrite its value to [map f L] with [f] a local definition *)
Ltac nf :=
  repeat first [ rewrite map_map | rewrite map6l_map
               | rewrite map2_map | rewrite map3_map | rewrite map4_map
               | rewrite mand_map | rewrite mnot_map | rewrite mget_map | rewrite mset_map
               | rewrite mset_s_map | rewrite clamp_map | rewrite flip_map | rewrite if_map ].
Ltac step :=
  match goal with
  | |- (let x := ?e in @?b x) = ?r =>
      let A := type of e in
      match eval hnf in A with
      | list ?T =>
          lazymatch goal with L : list (nat * ?X0) |- _ =>
          let X := constr:((nat * X0)%type) in
          let f := fresh x in
          evar (f : X -> T);
          let E := fresh "E" in
          first [ assert (E : e = map f L) by (nf; subst f; reflexivity)
                | assert (E : e = map f (filter _ L)) by (nf; subst f; reflexivity) ];
          change (b e = r); rewrite E; clear E; cbv beta end
      | _ => change (b e = r); cbv beta
      end
  end.
Ltac clear_lets :=
  repeat match goal with f := _ |- _ => subst f end.

Section Tagged.
Variables (cols : list (six F)) (mu : list F).
Hypothesis Hlen : length cols = length mu.

Lemma cart_to_kep_cols_map g deg :
  cart_to_kep_cols g cols mu deg = map2 (c2k_col deg) cols mu.
Proof.
  rewrite <- (tag_map2 cols mu Hlen).
  pose proof (tag_col cols mu Hlen) as Hc. pose proof (tag_snd cols mu Hlen) as Hm.
  assert (He : forall C (g : nat -> C), np_empty g (length cols) = map (fun t => g (fst t)) (tag cols mu))
    by (intros; apply tag_empty; auto).
  remember (tag cols mu) as L eqn:EL. clear EL.
  cbv delta [cart_to_kep_cols] beta.
  step. rewrite !He. rewrite <- Hc, <- Hm. clear He Hc Hm.
  repeat step. nf. rewrite zip6_map. apply map_ext. intros [k [c m]].
  unfold c2k_col. cbv zeta. cbn [fst snd].
  f_equal; clear_lets; cbn [fst snd]; unfold flip;
    try (match goal with |- context [ltb e_lim ?x] => destruct (ltb e_lim x) end);
    try (match goal with |- context [ltb i_lim ?x] => destruct (ltb i_lim x) end);
    try (match goal with |- context [ltb ?x (sub npi i_lim)] => destruct (ltb x (sub npi i_lim)) end);
    cbn [andb negb]; rewrite ?andb_false_r, ?andb_true_r; cbn [andb]; reflexivity.
Qed.

(** one column of kep_to_cart: in-place edits, computation, restore *)
Definition edit_col (deg : bool) (c : six F) : six F :=
  let c := if deg then ang6 radians c else c in
  mk6 (if s1 c >? lit 1 then s0 c * lit (-1) else s0 c) (s1 c) (s2 c) (s3 c) (s4 c) (s5 c).
Definition k2c_col (c : six F) (mu : F) : six F :=
  let h := if s1 c =? lit 1 then parabolic_total_angular_momentum (s0 c) mu
           else orbit_total_angular_momentum (s0 c) (s1 c) mu in
  let rn := orbital_distance h mu (s1 c) (s5 c) false in
  let R := euler_rotation_matrix (s2 c) (s3 c) (s4 c) false in
  let rx := rn * ncos (s5 c) in
  let ry := rn * nsin (s5 c) in
  let vn := mu / h in
  let vx := (- vn) * nsin (s5 c) in
  let vy := vn * (s1 c + ncos (s5 c)) in
  mk6 (m00 R * rx + m01 R * ry) (m10 R * rx + m11 R * ry) (m20 R * rx + m21 R * ry)
      (m00 R * vx + m01 R * vy) (m10 R * vx + m11 R * vy) (m20 R * vx + m21 R * vy).

Lemma kep_to_cart_cols_map g : kep_to_cart_cols g cols mu = map2 k2c_col cols mu.
Proof.
  rewrite <- (tag_map2 cols mu Hlen).
  pose proof (tag_col cols mu Hlen) as Hc. pose proof (tag_snd cols mu Hlen) as Hm.
  assert (He : forall C (g : nat -> C), np_empty g (length cols) = map (fun t => g (fst t)) (tag cols mu))
    by (intros; apply tag_empty; auto).
  remember (tag cols mu) as L eqn:EL. clear EL.
  cbv delta [kep_to_cart_cols] beta.
  rewrite !He. rewrite <- Hc, <- Hm. clear He Hc Hm.
  repeat step. nf. rewrite zip6_map. apply map_ext. intros [k [c m]].
  unfold k2c_col. cbv zeta. cbn [fst snd]. clear_lets; cbn [fst snd].
  match goal with |- context [eqb ?x (lit 1)] => destruct (eqb x (lit 1)) end;
    cbn [negb]; reflexivity.
Qed.
End Tagged.

Lemma kep_edit_map deg cols : kep_edit deg cols = map (edit_col deg) cols.
Proof.
  unfold kep_edit, edit_col. destruct deg; nf; rewrite zip6_map; apply map_ext; intros c;
    unfold ang6; cbn [s0 s1 s2 s3 s4 s5]; reflexivity.
Qed.

(** one column of the equinoctial conversions *)
Definition k2q_col (deg : bool) (c : six F) : six F :=
  let d := fun x => if deg then radians x else x in
  let ob := d (s3 c + s4 c) in
  let OM := d (s4 c) in
  let hi := d (lit 0.5 * s2 c) in
  mk6 (s0 c) (s1 c * nsin ob) (s1 c * ncos ob) (ntan hi * nsin OM) (ntan hi * ncos OM)
      (nmod (s3 c + s4 c + s5 c + circ deg) (circ deg)).
Lemma kep_to_equi_cols_map deg cols : kep_to_equi_cols deg cols = map (k2q_col deg) cols.
Proof.
  unfold kep_to_equi_cols, k2q_col. destruct deg; nf; rewrite zip6_map; reflexivity.
Qed.
Definition q2k_col (deg : bool) (c : six F) : six F :=
  let d := fun x => if deg then degrees x else x in
  let w := fun x => nmod (x + circ deg) (circ deg) in
  let e := nsqrt (sq (s1 c) + sq (s2 c)) in
  let ob := d (narctan2 (s1 c) (s2 c)) in
  let i := d (lit 2 * narctan (nsqrt (sq (s3 c) + sq (s4 c)))) in
  let OM := d (narctan2 (s3 c) (s4 c)) in
  let eg := e >? e_lim in
  mk6 (s0 c) e i (w (if eg then ob - OM else lit 0)) (w OM)
      (w (if eg then s5 c - ob else s5 c - OM)).
Lemma equi_to_kep_cols_map g deg cols : equi_to_kep_cols g deg cols = map (q2k_col deg) cols.
Proof.
  assert (Hlen : length cols = length (map (fun _ => tt) cols)) by now rewrite map_length.
  set (mu := map (fun _ => tt) cols) in *.
  transitivity (map2 (fun c (_ : unit) => q2k_col deg c) cols mu).
  2:{ subst mu. clear Hlen. induction cols; cbn; congruence. }
  rewrite <- (tag_map2 cols mu Hlen).
  pose proof (tag_col cols mu Hlen) as Hc.
  assert (He : forall C (g : nat -> C), np_empty g (length cols) = map (fun t => g (fst t)) (tag cols mu))
    by (intros; apply tag_empty; auto).
  remember (tag cols mu) as L eqn:EL. clear EL.
  cbv delta [equi_to_kep_cols] beta.
  step. rewrite !He. rewrite <- Hc. clear He Hc.
  do 7 step. 
  match goal with |- (let x := ?e in @?b x) = ?r => change (b e = r); cbv beta end.
  repeat step. nf. rewrite zip6_map. apply map_ext. intros [k [c m]].
  unfold q2k_col. cbv zeta. cbn [fst snd]. clear_lets; cbn [fst snd].
  f_equal; try (match goal with |- context [ltb e_lim ?x] => destruct (ltb e_lim x) end);
    cbn [negb]; reflexivity.
Qed.
End Cols.
