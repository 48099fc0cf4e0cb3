(** * C67: integer arrays as arguments of the conversions *)
From Coq Require Import List Bool Arith Lia ZArith QArith.
From Verif Require Import NP KeplerModel ConvModel Lists ConvCols OrbitLists OrbitBase DtypeModel.
Import ListNotations.

Section Generic.
Context {F : Type} `{NP F}.
Local Open Scope np_scope.
Variable tr : F -> F.

(** for float64 arrays the typed functions are the functions of the main model *)
Theorem C67_float :
  (forall g x mu deg, cart_to_kep_d tr DFloat g x mu deg = cart_to_kep g x mu deg)
  /\ (forall g x mu deg, kep_to_cart_d tr DFloat g x mu deg = kep_to_cart g x mu deg)
  /\ (forall x deg, kep_to_equi_d tr DFloat x deg = kep_to_equi x deg)
  /\ (forall g x deg, equi_to_kep_d tr DFloat g x deg = equi_to_kep g x deg).
Proof. repeat split; intros; destruct x; reflexivity. Qed.

(** the anomaly conversions: whenever the buffer is float64 the result is the one of the main model *)
Definition data {A} (r : res (A * dtype)) : res A := rlet x := r in Ok (fst x).
Lemma float_anomaly_buf : forall (x e : targ F) deg, buf deg x e = DFloat ->
  (forall g, data (true_to_eccentric_d tr g x e deg) = true_to_eccentric g (fst x) (fst e) deg)
  /\ (forall g, data (eccentric_to_true_d tr g x e deg) = eccentric_to_true g (fst x) (fst e) deg)
  /\ (forall g, data (eccentric_to_mean_d tr g x e deg) = eccentric_to_mean g (fst x) (fst e) deg)
  /\ (forall o, data (mean_to_eccentric_d tr x e o deg) = mean_to_eccentric (fst x) (fst e) o deg).
Proof.
  intros x e deg B. unfold true_to_eccentric_d, eccentric_to_true_d, eccentric_to_mean_d, mean_to_eccentric_d. rewrite B.
  unfold true_to_eccentric, eccentric_to_true, eccentric_to_mean, mean_to_eccentric, data.
  repeat split; intros; destruct (broadcast _ _) as [[|]|]; try reflexivity; cbn [rbind].
  - now destruct (eqb _ _).
  - now destruct (Nat.eqb _ _).
Qed.
(** the calls that are safe: in degrees; with a float64 anomaly array; with scalars; with a scalar anomaly and an array of
    eccentricities if one of the two is a float *)
Definition float_call (deg : bool) (x e : targ F) : Prop :=
  deg = true \/ match fst x, fst e with
                | Arr _ _ _, _ => snd x = DFloat
                | Sc _, Arr _ _ _ => snd x = DFloat \/ snd e = DFloat
                | Sc _, Sc _ => True
                end.
Theorem C67_float_anomaly : forall (x e : targ F) deg, float_call deg x e ->
  (forall g, data (true_to_eccentric_d tr g x e deg) = true_to_eccentric g (fst x) (fst e) deg)
  /\ (forall g, data (eccentric_to_true_d tr g x e deg) = eccentric_to_true g (fst x) (fst e) deg)
  /\ (forall g, data (eccentric_to_mean_d tr g x e deg) = eccentric_to_mean g (fst x) (fst e) deg)
  /\ (forall o, data (mean_to_eccentric_d tr x e o deg) = mean_to_eccentric (fst x) (fst e) o deg).
Proof.
  intros x e deg B. apply float_anomaly_buf. destruct B as [->|B]; [reflexivity|]. unfold buf. destruct deg; [reflexivity|].
  destruct (fst x), (fst e); auto. destruct (snd e), (snd x), B; auto; discriminate.
Qed.
(** an integer anomaly (Python int) with a float64 array of eccentricities *)
Example C67_float_call_example (a b : F) : float_call false (Sc a, DInt) (Arr [1]%nat [0]%nat [b], DFloat).
Proof. right. cbn. auto. Qed.

(** ** Every column on its own: also for integer arrays no element depends on the other orbits or on
    what the np.empty buffers held *)
Section Cast.
Variable c : F -> F.
Definition flip_d (b : bool) (x : F) : F := if b then c (n2pi - x) else x.
Lemma flip_d_map {X} (b : X -> bool) (f : X -> F) L :
  flip2pi_d c (map b L) (map f L) = map (fun x => if b x then c (n2pi - f x) else f x) L.
Proof. unfold flip2pi_d. now rewrite mget_map, map_map, mset_map. Qed.
(** one column of cart_to_kep *)
Definition c2k_col_d (deg : bool) (x : six F) (mu : F) : six F :=
  let r := (s0 x, s1 x, s2 x) in
  let v := (s3 x, s4 x, s5 x) in
  let rn := vnorm r in
  let vn := vnorm v in
  let vr := vsum (vmul (vdivs r rn) v) in
  let eps := sq vn * lit 0.5 - mu/rn in
  let e := ecc_el mu vn rn vr r v in
  let o1 := c (vnorm e) in
  let a := c ((- mu)/(lit 2 * eps)) in
  let o0 := if o1 >=? lit 1 then c (- a) else a in
  let h := vcross r v in
  let o2 := c (narccos (c2 h/vnorm h)) in
  let eg := o1 >? e_lim in
  let ig := (o2 >? i_lim) && (o2 <? npi - i_lim) in
  let w := vcross (lit 0, lit 0, lit 1) h in
  let n := (c (c0 w), c (c1 w), c (c2 w)) in
  let nn := vnorm n in
  let o4 := if ig then flip_d (c1 n <? lit 0) (c (narccos (c0 n/nn))) else c (lit 0) in
  let o3 := if eg then
              if ig then flip_d (c2 e <? lit 0) (c (narccos (clamp1 (vsum (vmul n e) / (nn * o1)))))
              else flip_d ((o2 >? npi * lit 0.5) && (c1 e >=? lit 0))
                     (flip_d ((o2 <? npi * lit 0.5) && (c1 e <? lit 0))
                        (c (narccos (clamp1 (c0 e / o1)))))
            else c (lit 0) in
  let o5 := if eg then flip_d (vr <? lit 0) (c (narccos (clamp1 (vsum (vmul e r) / (o1 * rn)))))
            else if ig then flip_d (c2 r <? lit 0)
                              (c (narccos (clamp1 (vsum (vmul (vdivs n nn) (vdivs r rn))))))
            else flip_d ((o2 >? npi * lit 0.5) && (c1 r >=? lit 0))
                   (flip_d ((o2 <? npi * lit 0.5) && (c1 r <? lit 0))
                      (c (narccos (clamp1 (c0 r / rn))))) in
  let d := fun x => if deg then c (degrees x) else x in
  mk6 o0 o1 (d o2) (d o3) (d o4) (d o5).
Ltac nf :=
  repeat first [ rewrite map_map | rewrite map6l_map
               | rewrite map2_map | rewrite map3_map | rewrite map4_map
               | rewrite mand_map | rewrite mnot_map | rewrite mget_map | rewrite mset_map
               | rewrite mset_s_map | rewrite clamp_map | rewrite flip_d_map | rewrite if_map ].
Ltac step :=
  match goal with
  | |- (let x := ?e in @?b x) = ?r =>
      let A := type of e in
      match eval hnf in A with
      | list ?T =>
          lazymatch goal with L : list (nat * ?X0) |- _ =>
          let X := constr:((nat * X0)%type) in
          let f := fresh x in
          evar (f : X -> T);
          let E := fresh "E" in
          first [ assert (E : e = map f L) by (nf; subst f; reflexivity)
                | assert (E : e = map f (filter _ L)) by (nf; subst f; reflexivity) ];
          change (b e = r); rewrite E; clear E; cbv beta end
      | _ => change (b e = r); cbv beta
      end
  end.
Ltac clear_lets := repeat match goal with f := _ |- _ => subst f end.
Section Tagged.
Variables (cols : list (six F)) (mu : list F).
Hypothesis Hlen : length cols = length mu.
Lemma cart_to_kep_cols_d_map g deg :
  cart_to_kep_cols_d c g cols mu deg = map2 (c2k_col_d deg) cols mu.
Proof.
  rewrite <- (tag_map2 cols mu Hlen).
  pose proof (tag_col cols mu Hlen) as Hc. pose proof (tag_snd cols mu Hlen) as Hm.
  assert (He : forall C (g : nat -> C), np_empty g (length cols) = map (fun t => g (fst t)) (tag cols mu))
    by (intros; apply tag_empty; auto).
  remember (tag cols mu) as L eqn:EL. clear EL.
  cbv delta [cart_to_kep_cols_d] beta.
  step. rewrite !He. rewrite <- Hc, <- Hm. clear He Hc Hm.
  repeat step. nf. rewrite zip6_map. apply map_ext. intros [k [x m]].
  unfold c2k_col_d. cbv zeta. cbn [fst snd].
  f_equal; clear_lets; cbn [fst snd]; unfold flip_d;
    try (match goal with |- context [ltb e_lim ?x] => destruct (ltb e_lim x) end);
    try (match goal with |- context [ltb i_lim ?x] => destruct (ltb i_lim x) end);
    try (match goal with |- context [ltb ?x (sub npi i_lim)] => destruct (ltb x (sub npi i_lim)) end);
    cbn [andb negb]; rewrite ?andb_false_r, ?andb_true_r; cbn [andb]; reflexivity.
Qed.
Definition edit_col_d (deg : bool) (k : six F) : six F :=
  let k := if deg then ang6 (fun x => c (radians x)) k else k in
  mk6 (if s1 k >? lit 1 then c (s0 k * lit (-1)) else s0 k) (s1 k) (s2 k) (s3 k) (s4 k) (s5 k).
Definition k2c_col_d (k : six F) (mu : F) : six F :=
  let h := if s1 k =? lit 1 then c (parabolic_total_angular_momentum (s0 k) mu)
           else c (orbit_total_angular_momentum (s0 k) (s1 k) mu) in
  let rn := orbital_distance h mu (s1 k) (s5 k) false in
  let R := euler_rotation_matrix (s2 k) (s3 k) (s4 k) false in
  let rx := rn * ncos (s5 k) in
  let ry := rn * nsin (s5 k) in
  let vn := mu / h in
  let vx := (- vn) * nsin (s5 k) in
  let vy := vn * (s1 k + ncos (s5 k)) in
  map6 (fun x => c (c x))
   (mk6 (m00 R * rx + m01 R * ry) (m10 R * rx + m11 R * ry) (m20 R * rx + m21 R * ry)
        (m00 R * vx + m01 R * vy) (m10 R * vx + m11 R * vy) (m20 R * vx + m21 R * vy)).
Lemma kep_to_cart_cols_d_map g : kep_to_cart_cols_d c g cols mu = map2 k2c_col_d cols mu.
Proof.
  rewrite <- (tag_map2 cols mu Hlen).
  pose proof (tag_col cols mu Hlen) as Hc. pose proof (tag_snd cols mu Hlen) as Hm.
  assert (He : forall C (g : nat -> C), np_empty g (length cols) = map (fun t => g (fst t)) (tag cols mu))
    by (intros; apply tag_empty; auto).
  remember (tag cols mu) as L eqn:EL. clear EL.
  cbv delta [kep_to_cart_cols_d] beta.
  rewrite !He. rewrite <- Hc, <- Hm. clear He Hc Hm.
  repeat step. nf. rewrite zip6_map. apply map_ext. intros [k [x m]].
  unfold k2c_col_d. cbv zeta. cbn [fst snd]. clear_lets; cbn [fst snd].
  match goal with |- context [eqb ?x (lit 1)] => destruct (eqb x (lit 1)) end;
    cbn [negb]; reflexivity.
Qed.
End Tagged.
Lemma kep_edit_d_map deg cols : kep_edit_d c deg cols = map (edit_col_d deg) cols.
Proof.
  unfold kep_edit_d, edit_col_d. destruct deg; nf; rewrite zip6_map; apply map_ext; intros k;
    unfold ang6; cbn [s0 s1 s2 s3 s4 s5]; reflexivity.
Qed.
End Cast.
Lemma by_masks_d_imap c g fh fp fe (dx de : list F) : length dx = length de ->
  by_masks_d c g fh fp fe dx de
  = imap2 (fun j => branch (g j) (fun x e => c (fh x e)) (fun x e => c (fp x e)) (fun x e => c (fe x e))) 0 dx de.
Proof. intros. unfold by_masks_d. now apply by_masks_imap. Qed.

(** ** What the integer buffers hold *)
Definition stored (x : F) : Prop := exists y, x = tr y.
Definition stored6 (k : six F) : Prop :=
  stored (s0 k) /\ stored (s1 k) /\ stored (s2 k) /\ stored (s3 k) /\ stored (s4 k) /\ stored (s5 k).
Lemma stored_tr x : stored (tr x).
Proof. now exists x. Qed.
Lemma stored_if (b : bool) x y : stored x -> stored y -> stored (if b then x else y).
Proof. now destruct b. Qed.
Lemma stored_flip b x : stored x -> stored (flip_d tr b x).
Proof. intros. unfold flip_d. destruct b; auto using stored_tr. Qed.
Lemma c2k_stored deg x mu : stored6 (c2k_col_d tr deg x mu).
Proof.
  unfold c2k_col_d. cbv zeta. unfold stored6. cbn [s0 s1 s2 s3 s4 s5].
  repeat split; repeat first [apply stored_tr | apply stored_if | apply stored_flip].
Qed.
Lemma k2c_stored k mu : stored6 (k2c_col_d tr k mu).
Proof. unfold k2c_col_d. cbv zeta. unfold stored6. cbn [map6 s0 s1 s2 s3 s4 s5]. repeat split; apply stored_tr. Qed.
Lemma map2_Forall {A B C} (P : C -> Prop) (f : A -> B -> C) l l' : (forall x y, P (f x y)) -> Forall P (map2 f l l').
Proof. intros Hf. revert l'. induction l as [|x l IH]; intros [|y l']; cbn; auto. Qed.
Lemma mu_bcast_length n mu (l : list F) : mu_bcast n mu = Ok l -> length l = n.
Proof.
  unfold mu_bcast. destruct mu as [x|v]; [intros [= <-]; apply repeat_length|].
  destruct (Nat.eqb_spec (length v) n); [congruence|]. destruct v as [|x [|]]; try discriminate. intros [= <-]. apply repeat_length.
Qed.
Lemma mu_mask_length n mu (l : list F) : mu_mask n mu = Ok l -> length l = n.
Proof.
  unfold mu_mask. destruct mu as [x|v]; [intros [= <-]; apply repeat_length|].
  destruct (Nat.eqb_spec (length v) n); congruence.
Qed.
(** the columns of a result *)
Definition cols_of (k : kinput F) : list (six F) := match k with KVec c => [c] | KMat l => l | _ => [] end.
(** every entry that cart_to_kep and kep_to_cart return for an integer array has been truncated *)
Theorem C67_truncated :
  (forall g x mu deg y, snd (cart_to_kep_d tr DInt g x mu deg) = Ok y -> Forall stored6 (cols_of y))
  /\ (forall g x mu deg y, snd (kep_to_cart_d tr DInt g x mu deg) = Ok y -> Forall stored6 (cols_of y)).
Proof.
  split; intros g x mu deg y.
  - unfold cart_to_kep_d. destruct x as [| | |k|l]; try discriminate.
    + destruct (mu_bcast 1 mu) as [m|] eqn:E; [|discriminate]. apply mu_bcast_length in E.
      rewrite cart_to_kep_cols_d_map by (cbn; congruence).
      destruct m as [|m0 [|]]; try discriminate. cbn [map2 snd]. intros [= <-]. repeat constructor; apply c2k_stored.
    + destruct (mu_bcast (length l) mu) as [m|] eqn:E; [|discriminate]. apply mu_bcast_length in E.
      cbn [snd]. intros [= <-]. cbn [cols_of]. rewrite cart_to_kep_cols_d_map by congruence.
      apply map2_Forall. intros. apply c2k_stored.
  - unfold kep_to_cart_d. destruct x as [| | |k|l]; try discriminate.
    + destruct (mu_mask 1 mu) as [m|] eqn:E; [|discriminate]. apply mu_mask_length in E. rewrite kep_edit_d_map. cbn [map].
      rewrite kep_to_cart_cols_d_map by (cbn; congruence).
      destruct m as [|m0 [|]]; try discriminate. cbn [map2]. unfold kep_restore_d.
      destruct deg; cbn [map snd]; intros [= <-]; repeat constructor; apply k2c_stored.
    + destruct (mu_mask (length l) mu) as [m|] eqn:E; [|discriminate]. apply mu_mask_length in E.
      cbn [snd]. intros [= <-]. cbn [cols_of]. rewrite kep_edit_d_map, kep_to_cart_cols_d_map by (rewrite map_length; congruence).
      apply map2_Forall. intros. apply k2c_stored.
Qed.
End Generic.
