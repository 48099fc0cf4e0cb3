(** * Properties of the array level code that hold for every arithmetic:
    C11 (arguments unchanged), C12 (validation), C13 (column-wise conversions). *)
From Coq Require Import List Bool Arith Lia ZArith QArith.
From Verif Require Import NP KeplerModel ConvModel Lists ConvCols ArraySpec NPToy.
Import ListNotations.

Section Generic.
Context {F : Type} `{NP F}.
Local Open Scope np_scope.

Lemma mu_bcast_ok n (mu : muarg F) mus : mu_bcast n mu = Ok mus ->
  length mus = n /\ forall j, (j < n)%nat -> mu_at mu n j = nth_error mus j.
Proof.
  unfold mu_bcast, mu_at. destruct mu as [x|l].
  - injection 1 as <-. split; [apply repeat_length|]. intros.
    symmetry. apply nth_error_repeat. auto.
  - destruct (length l =? n)%nat eqn:E.
    + injection 1 as <-. apply Nat.eqb_eq in E. auto.
    + destruct l as [|x [|y l]]; try discriminate. injection 1 as <-.
      split; [apply repeat_length|]. intros. symmetry. apply nth_error_repeat. auto.
Qed.
Lemma mu_mask_ok n (mu : muarg F) mus : mu_mask n mu = Ok mus ->
  length mus = n /\ forall j, (j < n)%nat -> mu_at mu n j = nth_error mus j.
Proof.
  unfold mu_mask, mu_at. destruct mu as [x|l].
  - injection 1 as <-. split; [apply repeat_length|]. intros.
    symmetry. apply nth_error_repeat. auto.
  - destruct (length l =? n)%nat eqn:E; [|discriminate].
    injection 1 as <-. apply Nat.eqb_eq in E. auto.
Qed.

(** *** normal forms of the whole functions *)
Lemma cart_to_kep_vec g c mu deg mus : mu_bcast 1 mu = Ok mus ->
  exists m, mus = [m] /\ cart_to_kep g (KVec c) mu deg = (KVec c, Ok (KVec (c2k_col deg c m))).
Proof.
  intros E. cbn [cart_to_kep]. rewrite E. destruct (mu_bcast_ok _ _ _ E) as [Hl _].
  destruct mus as [|m [|]]; try discriminate. exists m. split; auto.
  rewrite (cart_to_kep_cols_map [c] [m]); auto.
Qed.
Lemma kep_to_cart_vec g c mu deg mus : mu_mask 1 mu = Ok mus ->
  exists m, mus = [m] /\ kep_to_cart g (KVec c) mu deg
    = (KVec (if deg then ang6 degrees (edit_col deg c) else edit_col deg c),
       Ok (KVec (k2c_col (edit_col deg c) m))).
Proof.
  intros E. cbn [kep_to_cart]. rewrite E. destruct (mu_mask_ok _ _ _ E) as [Hl _].
  destruct mus as [|m [|]]; try discriminate. exists m. split; auto.
  rewrite kep_edit_map. cbn [map]. rewrite kep_to_cart_cols_map; auto.
  cbn. destruct deg; reflexivity.
Qed.
Lemma cart_to_kep_mat g l mu deg mus : mu_bcast (length l) mu = Ok mus ->
  cart_to_kep g (KMat l) mu deg = (KMat l, Ok (KMat (map2 (c2k_col deg) l mus))).
Proof.
  intros E. cbn [cart_to_kep]. rewrite E. destruct (mu_bcast_ok _ _ _ E).
  rewrite cart_to_kep_cols_map; auto.
Qed.
Lemma kep_to_cart_mat g l mu deg mus : mu_mask (length l) mu = Ok mus ->
  kep_to_cart g (KMat l) mu deg
  = (KMat (map (fun c => if deg then ang6 degrees (edit_col deg c) else edit_col deg c) l),
     Ok (KMat (map2 (fun c => k2c_col (edit_col deg c)) l mus))).
Proof.
  intros E. cbn [kep_to_cart]. rewrite E. destruct (mu_mask_ok _ _ _ E).
  rewrite kep_edit_map, kep_to_cart_cols_map by (rewrite map_length; auto).
  rewrite map2_map_l. f_equal. f_equal. unfold kep_restore. destruct deg; auto.
  now rewrite map_map.
Qed.

(** *** C12 *)
(** validation of cart_to_kep and kep_to_cart *)
Theorem C12_validation : forall g g1 (x : kinput F) mu deg,
  (kshape x = None ->
     snd (cart_to_kep g x mu deg) = Raise TypeError /\ snd (kep_to_cart g1 x mu deg) = Raise TypeError)
  /\ (forall n s, kshape x = Some (n :: s) -> n <> 6%nat ->
     snd (cart_to_kep g x mu deg) = Raise ValueError /\ snd (kep_to_cart g1 x mu deg) = Raise ValueError)
  /\ (forall y, snd (cart_to_kep g x mu deg) = Ok y -> kshape y = kshape x /\ exists s, kshape x = Some (6%nat :: s))
  /\ (forall y, snd (kep_to_cart g1 x mu deg) = Ok y -> kshape y = kshape x /\ exists s, kshape x = Some (6%nat :: s)).
Proof.
  intros g g1 x mu deg. split; [|split; [|split]].
  - destruct x; try discriminate. now split.
  - destruct x; try discriminate; cbn; try now split.
    + injection 1 as <- <-. easy.
    + injection 1 as <- <-. easy.
  - destruct x as [| |s|c|l]; try discriminate; intros y.
    + destruct (mu_bcast 1 mu) as [mus|x] eqn:E.
      * destruct (cart_to_kep_vec g c mu deg mus E) as [m [-> ->]]. injection 1 as <-.
        cbn; eauto.
      * cbn [cart_to_kep kep_to_cart snd fst]. rewrite E. discriminate.
    + destruct (mu_bcast (length l) mu) as [mus|x] eqn:E.
      * rewrite (cart_to_kep_mat g l mu deg mus E). injection 1 as <-. cbn.
        rewrite map2_length. destruct (mu_bcast_ok _ _ _ E) as [-> _].
        rewrite Nat.min_id. eauto.
      * cbn [cart_to_kep kep_to_cart snd fst]. rewrite E. discriminate.
  - destruct x as [| |s|c|l]; try discriminate; intros y.
    + destruct (mu_mask 1 mu) as [mus|x] eqn:E.
      * destruct (kep_to_cart_vec g1 c mu deg mus E) as [m [-> ->]]. injection 1 as <-.
        cbn; eauto.
      * cbn [cart_to_kep kep_to_cart snd fst]. rewrite E. discriminate.
    + destruct (mu_mask (length l) mu) as [mus|x] eqn:E.
      * rewrite (kep_to_cart_mat g1 l mu deg mus E). injection 1 as <-. cbn.
        rewrite map2_length. destruct (mu_mask_ok _ _ _ E) as [-> _].
        rewrite Nat.min_id. eauto.
      * cbn [cart_to_kep kep_to_cart snd fst]. rewrite E. discriminate.
Qed.
(** ... and valid input (shape (6,) or (6,N), mu a float or one value per column) is accepted *)
Theorem C12_valid_input_accepted : forall g g1 (x : kinput F) mu deg n,
  ((exists c, x = KVec c) /\ n = 1%nat \/ exists l, x = KMat l /\ length l = n) ->
  (forall l, mu = MuV l -> length l = n) ->
  (exists y, snd (cart_to_kep g x mu deg) = Ok y) /\ (exists y, snd (kep_to_cart g1 x mu deg) = Ok y).
Proof.
  intros g g1 x mu deg n [[[c ->] ->]|[l [-> <-]]] Hmu.
  - assert (exists m, mu_bcast 1 mu = Ok [m] /\ mu_mask 1 mu = Ok [m]) as [m [E1 E2]].
    { destruct mu as [m|[|m [|? ?]]]; cbn; eauto; specialize (Hmu _ eq_refl); discriminate. }
    destruct (cart_to_kep_vec g c mu deg _ E1) as [m1 [_ ->]].
    destruct (kep_to_cart_vec g1 c mu deg _ E2) as [m2 [_ ->]]. cbn; eauto.
  - assert (exists ms, mu_bcast (length l) mu = Ok ms /\ mu_mask (length l) mu = Ok ms) as [ms [E1 E2]].
    { destruct mu as [m|ms]; cbn; eauto. specialize (Hmu _ eq_refl).
      rewrite Hmu, Nat.eqb_refl. eauto. }
    rewrite (cart_to_kep_mat g l mu deg _ E1), (kep_to_cart_mat g1 l mu deg _ E2). cbn; eauto.
Qed.

(** *** C13 *)
(** Column j of the output is what the call on column j alone returns, whatever the np.empty
    buffers ([g], [g']) contain. *)
Theorem C13_cart_to_kep : forall g l mu deg y,
  snd (cart_to_kep g (KMat l) mu deg) = Ok y ->
  exists l', y = KMat l' /\ length l' = length l /\
  forall j c, nth_error l j = Some c ->
  exists m o, mu_at mu (length l) j = Some m /\ nth_error l' j = Some o /\
  forall g', snd (cart_to_kep g' (KVec c) (MuS m) deg) = Ok (KVec o).
Proof.
  intros g l mu deg y.
  destruct (mu_bcast (length l) mu) as [mus|x] eqn:E.
  2:{ cbn [cart_to_kep kep_to_cart snd fst]. rewrite E. discriminate. }
  rewrite (cart_to_kep_mat g l mu deg mus E). injection 1 as <-.
  destruct (mu_bcast_ok _ _ _ E) as [Hl Hm].
  eexists. split; [reflexivity|]. split; [rewrite map2_length; lia|].
  intros j c Hc.
  assert (Hj : (j < length l)%nat) by (apply nth_error_Some; congruence).
  destruct (nth_error mus j) as [m|] eqn:Em.
  2:{ apply nth_error_None in Em. lia. }
  exists m, (c2k_col deg c m). rewrite Hm by auto. split; [auto|].
  rewrite nth_error_map2, Hc, Em. split; [reflexivity|].
  intros g'. destruct (cart_to_kep_vec g' c (MuS m) deg [m] eq_refl) as [m' [Hm' ->]].
  injection Hm' as <-. reflexivity.
Qed.
Theorem C13_kep_to_cart : forall g l mu deg y,
  snd (kep_to_cart g (KMat l) mu deg) = Ok y ->
  exists l', y = KMat l' /\ length l' = length l /\
  forall j c, nth_error l j = Some c ->
  exists m o, mu_at mu (length l) j = Some m /\ nth_error l' j = Some o /\
  forall g', snd (kep_to_cart g' (KVec c) (MuS m) deg) = Ok (KVec o).
Proof.
  intros g l mu deg y.
  destruct (mu_mask (length l) mu) as [mus|x] eqn:E.
  2:{ cbn [cart_to_kep kep_to_cart snd fst]. rewrite E. discriminate. }
  rewrite (kep_to_cart_mat g l mu deg mus E). injection 1 as <-.
  destruct (mu_mask_ok _ _ _ E) as [Hl Hm].
  eexists. split; [reflexivity|]. split; [rewrite map2_length; lia|].
  intros j c Hc.
  assert (Hj : (j < length l)%nat) by (apply nth_error_Some; congruence).
  destruct (nth_error mus j) as [m|] eqn:Em.
  2:{ apply nth_error_None in Em. lia. }
  exists m, (k2c_col (edit_col deg c) m). rewrite Hm by auto. split; [auto|].
  rewrite nth_error_map2, Hc, Em. split; [reflexivity|].
  intros g'. destruct (kep_to_cart_vec g' c (MuS m) deg [m] eq_refl) as [m' [Hm' ->]].
  injection Hm' as <-. reflexivity.
Qed.
Theorem C13_equinoctial : forall g l deg,
  (exists l', equi_to_kep g (KMat l) deg = Ok (KMat l') /\ length l' = length l /\
     forall j c, nth_error l j = Some c -> exists o, nth_error l' j = Some o /\
     forall g', equi_to_kep g' (KVec c) deg = Ok (KVec o))
  /\ (exists l', kep_to_equi (KMat l) deg = Ok (KMat l') /\ length l' = length l /\
     forall j c, nth_error l j = Some c -> exists o, nth_error l' j = Some o /\
     kep_to_equi (KVec c) deg = Ok (KVec o)).
Proof.
  intros g l deg. split.
  - exists (map (q2k_col deg) l). unfold equi_to_kep, on_cols. rewrite equi_to_kep_cols_map.
    split; [reflexivity|]. split; [apply map_length|].
    intros j c Hc. exists (q2k_col deg c). split; [now apply map_nth_error|].
    intros g'. rewrite equi_to_kep_cols_map. reflexivity.
  - exists (map (k2q_col deg) l). unfold kep_to_equi, on_cols. rewrite kep_to_equi_cols_map.
    split; [reflexivity|]. split; [apply map_length|].
    intros j c Hc. exists (k2q_col deg c). split; [now apply map_nth_error|].
    rewrite kep_to_equi_cols_map. reflexivity.
Qed.

(** *** C11, positive part *)
Theorem C11_cart_to_kep_partial : forall g x mu deg y,
  snd (cart_to_kep g x mu deg) = Ok y -> fst (cart_to_kep g x mu deg) = x.
Proof.
  intros g x mu deg y. destruct x as [| |s|c|l]; try reflexivity.
  - destruct (mu_bcast 1 mu) as [mus|x] eqn:E.
    + destruct (cart_to_kep_vec g c mu deg mus E) as [m [-> ->]]. auto.
    + cbn [cart_to_kep kep_to_cart snd fst]. rewrite E. discriminate.
  - destruct (mu_bcast (length l) mu) as [mus|x] eqn:E.
    + now rewrite (cart_to_kep_mat g l mu deg mus E).
    + cbn [cart_to_kep kep_to_cart snd fst]. rewrite E. discriminate.
Qed.
(** a (6,N) argument is also left alone when the call raises *)
Theorem C11_cart_to_kep_matrix : forall g l mu deg, fst (cart_to_kep g (KMat l) mu deg) = KMat l.
Proof.
  intros g l mu deg. cbn [cart_to_kep]. destruct (mu_bcast (length l) mu); reflexivity.
Qed.
Definition kcols (x : kinput F) : list (six F) :=
  match x with KVec c => [c] | KMat l => l | _ => [] end.
(** kep_to_cart in radians leaves the argument alone when no eccentricity exceeds 1 *)
Theorem C11_kep_to_cart_partial : forall g x mu y,
  (forall c, In c (kcols x) -> (s1 c >? lit 1) = false) ->
  snd (kep_to_cart g x mu false) = Ok y -> fst (kep_to_cart g x mu false) = x.
Proof.
  intros g x mu y Hx.
  assert (He : forall c, In c (kcols x) -> edit_col false c = c).
  { intros c Hc. unfold edit_col. rewrite (Hx c Hc). now destruct c. }
  destruct x as [| |s|c|l]; try reflexivity.
  - destruct (mu_mask 1 mu) as [mus|x] eqn:E.
    + destruct (kep_to_cart_vec g c mu false mus E) as [m [-> ->]]. cbn.
      rewrite He; cbn; auto.
    + cbn [cart_to_kep kep_to_cart snd fst]. rewrite E. discriminate.
  - destruct (mu_mask (length l) mu) as [mus|x] eqn:E.
    + rewrite (kep_to_cart_mat g l mu false mus E). cbn. intros _.
      f_equal. rewrite <- (map_id l) at 2. apply map_ext_in. exact He.
    + cbn [cart_to_kep kep_to_cart snd fst]. rewrite E. discriminate.
Qed.
(** the shape set at line 380 is not restored when the call raises: a (6,) state comes back
    with shape (6,1) *)
Theorem C11_shape_after_exception_refuted : forall g g1 (c : six F) m1 m2 deg,
  snd (cart_to_kep g (KVec c) (MuV [m1; m2]) deg) = Raise ValueError
  /\ kshape (fst (cart_to_kep g (KVec c) (MuV [m1; m2]) deg)) = Some [6; 1]%nat
  /\ snd (kep_to_cart g1 (KVec c) (MuV [m1; m2]) deg) = Raise IndexError
  /\ kshape (fst (kep_to_cart g1 (KVec c) (MuV [m1; m2]) deg)) = Some [6; 1]%nat.
Proof.
  intros. cbn [cart_to_kep kep_to_cart mu_bcast mu_mask length Nat.eqb fst snd].
  rewrite kep_edit_map. cbn. auto.
Qed.
End Generic.

(** concrete instances (integer toy arithmetic) *)
#[local] Existing Instance NP_toy.
Definition toy_cols : list (six Z) := [mk6 7 0 1 2 3 4; mk6 9 1 0 2 0 4; mk6 5 2 0 0 3 1; mk6 8 0 0 0 0 1]%Z.
Example C13_example : exists l',
  snd (kep_to_cart (fun _ => 77%Z) (KMat toy_cols) (MuV [3;4;5;6]%Z) false) = Ok (KMat l')
  /\ snd (kep_to_cart (fun j => Z.of_nat j) (KMat toy_cols) (MuV [3;4;5;6]%Z) false) = Ok (KMat l')
  /\ length l' = 4%nat.
Proof. vm_compute. eauto. Qed.
Example C13_example2 : exists l',
  snd (cart_to_kep (fun _ _ => 77%Z) (KMat toy_cols) (MuS 3%Z) false) = Ok (KMat l') /\ length l' = 4%nat.
Proof. vm_compute. eauto. Qed.
Example C11_example : exists y,
  (forall c, In c (kcols (KMat [mk6 7 0 1 2 3 4; mk6 9 1 0 2 0 4]%Z)) -> ltb (lit 1) (s1 c) = false)
  /\ snd (kep_to_cart (fun _ => 77%Z) (KMat [mk6 7 0 1 2 3 4; mk6 9 1 0 2 0 4]%Z) (MuS 3%Z) false) = Ok y.
Proof.
  vm_compute. eexists. split; [|reflexivity]. intros c [<-|[<-|[]]]; reflexivity.
Qed.
Example C12_example : kshape (KBadRows [5;2]%nat : kinput Z) = Some [5;2]%nat
  /\ snd (cart_to_kep (fun _ _ => 0%Z) (KBadRows [5;2]%nat) (MuS 1%Z) false) = Raise ValueError.
Proof. split; reflexivity. Qed.

