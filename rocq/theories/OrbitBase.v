(** * Reasoning about the Orbit model (any arithmetic): rules for the state/exception monad,
    aligned arrays, and what calculate_kepler / calculate_cartesian do to each orbit. *)
From Coq Require Import List Bool Arith Lia ZArith QArith.
From Verif Require Import NP KeplerModel ConvModel UnitModel OrbitModel Lists ConvCols ArraySpec
  PropsAnomaly OrbitLists.
Import ListNotations.
Local Open Scope nat_scope.

Section Base.
Context {F : Type} `{NP F}.
Variable gb : nat -> nat -> F.
Notation orb := (orb F).

(** ** Rules *)
Definition post {A} (r : orb * res A) (Q : A -> orb -> Prop) (X : exn -> orb -> Prop) : Prop :=
  match r with (s, Ok x) => Q x s | (s, Raise e) => X e s end.
Lemma post_bind {A B} (m : M A) (f : A -> M B) s (Q : B -> orb -> Prop) X :
  post (m s) (fun x s' => post (f x s') Q X) X -> post (bind m f s) Q X.
Proof. unfold bind, post. destruct (m s) as [s' [x|e]]; auto. Qed.
Lemma post_get s (Q : orb -> orb -> Prop) X : Q s s -> post (get s) Q X. Proof. auto. Qed.
Lemma post_modify f s (Q : unit -> orb -> Prop) X : Q tt (f s) -> post (modify f s) Q X. Proof. auto. Qed.
Lemma post_ret {A} (x : A) s (Q : A -> orb -> Prop) X : Q x s -> post (ret x s) Q X. Proof. auto. Qed.
Lemma post_raise {A} e s (Q : A -> orb -> Prop) (X : exn -> orb -> Prop) : X e s -> post (raise e s) Q X.
Proof. auto. Qed.
Lemma post_lift {A} (r : res A) s (Q : A -> orb -> Prop) (X : exn -> orb -> Prop) :
  (forall x, r = Ok x -> Q x s) -> (forall e, r = Raise e -> X e s) -> post (lift r s) Q X.
Proof. intros HQ HX. unfold lift, post. destruct r; auto. Qed.
Lemma post_mono {A} (r : orb * res A) (Q Q' : A -> orb -> Prop) (X X' : exn -> orb -> Prop) :
  post r Q' X' -> (forall x s, Q' x s -> Q x s) -> (forall e s, X' e s -> X e s) -> post r Q X.
Proof. unfold post. destruct r as [s [x|e]]; auto. Qed.
Lemma post_eq {A} (m : M A) s s' r (Q : A -> orb -> Prop) (X : exn -> orb -> Prop) :
  m s = (s', r) -> match r with Ok x => Q x s' | Raise e => X e s' end -> post (m s) Q X.
Proof. intros ->. unfold post. destruct r; auto. Qed.

(** ** Settings and lengths *)
Definition settings (s : orb) :=
  (oM0 s, oG s, oauto s, odirect s, okro s, ocro s, odeg s, otype s, oopts s).
(** the arrays of equal length; [wE]: the eccentric anomaly cache *)
Record lens (n : nat) (s : orb) : Prop := mklens {
  l_m : length (om s) = n; l_c : length (ocart s) = n; l_k : length (okep s) = n;
  l_nu : length (onu s) = n; l_Ma : length (oMa s) = n;
  l_cf : length (ocf s) = n; l_kf : length (okf s) = n }.
Definition lazy (s : orb) : bool := oauto s && negb (odirect s).
Definition typed (s : orb) : bool := negb (anomaly_eqb (otype s) ATrue).

(** ** Entry-wise anomaly functions on arrays of shape (n,).  [g]: the np.empty entry that is
    left untouched when the eccentricity is neither <, =, > 1. *)
Definition branch (g : F) (fh fp fe : F -> F -> F) (x e : F) : F :=
  if ltb e (lit 1) then fe x e else if eqb e (lit 1) then fp x e
  else if ltb (lit 1) e then fh x e else g.
Definition inr (deg : bool) (x : F) : F := if deg then radians x else x.
Definition outd (deg : bool) (x : F) : F := if deg then degrees x else x.
Definition t2e1 g deg nu e := outd deg (wrap2pi (branch g t2e_hyp t2e_per t2e_eli (inr deg nu) e)).
Definition e2t1 g deg E e := outd deg (wrap2pi (branch g e2t_hyp e2t_per e2t_eli (inr deg E) e)).
Definition e2m1 g deg E e := outd deg (branch g e2m_hyp e2m_per e2m_eli (inr deg E) e).
Definition t2m1 (g : F * F) deg nu e :=
  outd deg (e2m1 (snd g) false (t2e1 (fst g) false (inr deg nu) e) e).
Definition m2e1 o deg M e := outd deg (m2e_el o (inr deg M) e).
Definition m2t1 g o deg M e := outd deg (e2t1 g false (m2e1 o false (inr deg M) e) e).

Lemma by_masks_imap g fh fp fe (dx de : list F) : length dx = length de ->
  by_masks g fh fp fe dx de = imap2 (fun j => branch (g j) fh fp fe) 0 dx de.
Proof.
  intros Hl. rewrite imap2_tag by auto. unfold by_masks, hyp_of, per_of, eli_of.
  rewrite (tag_empty dx de Hl).
  pose proof (tag_col dx de Hl) as Hc. pose proof (tag_snd dx de Hl) as Hm.
  remember (tag dx de) as L eqn:EL; clear EL.
  rewrite <- Hc, <- Hm, !map_map. cbv zeta.
  rewrite !mget_map, !map2_map, !mset_map. apply map_ext.
  intros t. unfold branch. now destruct (ltb _ (lit 1)).
Qed.
Lemma amap_fresh (f : F -> F) k s (d : list F) : amap f (fresh (k :: s) d) = fresh (k :: s) (map f d).
Proof. unfold fresh, amap. destruct s; now rewrite map_length. Qed.
Lemma imap2_map_l {A B C A'} (f : nat -> A -> B -> C) (h : A' -> A) k l m :
  imap2 f k (map h l) m = imap2 (fun j x => f j (h x)) k l m.
Proof. revert k m. induction l; destruct m; cbn; auto. intros. f_equal; auto. Qed.
Lemma map_imap2 {A B C D} (h : C -> D) (f : nat -> A -> B -> C) k l m :
  map h (imap2 f k l m) = imap2 (fun j x y => h (f j x y)) k l m.
Proof. revert k m. induction l; destruct m; cbn; auto. intros. f_equal; auto. Qed.
Lemma imap2_comp {A B C D} (f : nat -> C -> B -> D) (h : nat -> A -> B -> C) k l m :
  imap2 f k (imap2 h k l m) m = imap2 (fun j x y => f j (h j x y) y) k l m.
Proof. revert k m. induction l; destruct m; cbn; auto. intros. f_equal; auto. Qed.
Lemma imap2_const {A B C} (f : A -> B -> C) k l m : imap2 (fun _ => f) k l m = map2 f l m.
Proof. revert k m. induction l; destruct m; cbn; auto. intros. f_equal; auto. Qed.
Lemma fresh_bcast n (dx de : list F) : broadcast (fresh [n] dx) (fresh [n] de)
  = Ok (PArr [n] (seq 0 (length dx)) dx (seq 0 (length de)) de).
Proof. unfold broadcast, fresh. cbn [shape_eqb]. now rewrite Nat.eqb_refl. Qed.
Lemma in_rad_fresh deg n (d : list F) : in_rad deg (fresh [n] d) = fresh [n] (map (inr deg) d).
Proof. unfold in_rad, inr. destruct deg; [apply amap_fresh|]. now rewrite map_id. Qed.
Lemma out_deg_fresh deg n (d : list F) : out_deg deg (fresh [n] d) = fresh [n] (map (outd deg) d).
Proof. unfold out_deg, outd. destruct deg; [apply amap_fresh|]. now rewrite map_id. Qed.

Section Arrays.
Variables (n : nat) (dx de : list F).
Hypotheses (Hx : length dx = n) (He : length de = n).
Lemma t2e_arr g deg : true_to_eccentric g (fresh [n] dx) (fresh [n] de) deg
  = Ok (fresh [n] (imap2 (fun j => t2e1 (g j) deg) 0 dx de)).
Proof.
  unfold true_to_eccentric. rewrite in_rad_fresh, fresh_bcast. cbn [rbind].
  rewrite by_masks_imap by (rewrite map_length; congruence).
  rewrite amap_fresh, out_deg_fresh, imap2_map_l, !map_imap2. reflexivity.
Qed.
Lemma e2t_arr g deg : eccentric_to_true g (fresh [n] dx) (fresh [n] de) deg
  = Ok (fresh [n] (imap2 (fun j => e2t1 (g j) deg) 0 dx de)).
Proof.
  unfold eccentric_to_true. rewrite in_rad_fresh, fresh_bcast. cbn [rbind].
  rewrite by_masks_imap by (rewrite map_length; congruence).
  rewrite amap_fresh, out_deg_fresh, imap2_map_l, !map_imap2. reflexivity.
Qed.
Lemma e2m_arr g deg : eccentric_to_mean g (fresh [n] dx) (fresh [n] de) deg
  = Ok (fresh [n] (imap2 (fun j => e2m1 (g j) deg) 0 dx de)).
Proof.
  unfold eccentric_to_mean. rewrite in_rad_fresh, fresh_bcast. cbn [rbind].
  rewrite by_masks_imap by (rewrite map_length; congruence).
  rewrite out_deg_fresh, imap2_map_l, !map_imap2. reflexivity.
Qed.
Lemma m2e_arr o deg : mean_to_eccentric (fresh [n] dx) (fresh [n] de) o deg
  = Ok (fresh [n] (map2 (m2e1 o deg) dx de)).
Proof.
  unfold mean_to_eccentric. rewrite in_rad_fresh, fresh_bcast. cbn [rbind]. rewrite map_length.
  destruct (length dx =? 0) eqn:E0.
  - apply Nat.eqb_eq in E0. destruct dx; [reflexivity|discriminate].
  - rewrite out_deg_fresh, !nditer_seq by (rewrite ?map_length; auto).
    now rewrite map2_map_l, map_map2.
Qed.
End Arrays.
Lemma t2m_arr n dx de g1 g2 deg : length dx = n -> length de = n ->
  true_to_mean g1 g2 (fresh [n] dx) (fresh [n] de) deg
  = Ok (fresh [n] (imap2 (fun j => t2m1 (g1 j, g2 j) deg) 0 dx de)).
Proof.
  intros Hx He. unfold true_to_mean. rewrite in_rad_fresh, t2e_arr by (rewrite ?map_length; auto).
  cbn [rbind]. rewrite e2m_arr; auto.
  2: rewrite imap2_length, map_length; lia.
  cbn [rbind]. rewrite out_deg_fresh, imap2_map_l, imap2_comp, map_imap2. reflexivity.
Qed.
Lemma m2t_arr n dx de g o deg : length dx = n -> length de = n ->
  mean_to_true g (fresh [n] dx) (fresh [n] de) o deg
  = Ok (fresh [n] (imap2 (fun j => m2t1 (g j) o deg) 0 dx de)).
Proof.
  intros Hx He. unfold mean_to_true. rewrite in_rad_fresh, m2e_arr by (rewrite ?map_length; auto).
  cbn [rbind]. rewrite e2t_arr; auto.
  2: rewrite map2_length, map_length; lia.
  cbn [rbind]. rewrite out_deg_fresh, <- (imap2_const _ 0), imap2_map_l, imap2_comp, map_imap2. reflexivity.
Qed.

(** ** The mask of calculate_*: selected columns without NaN *)
Lemma do_mask_length (cols : list (six F)) ps : length (do_mask cols ps) = length cols.
Proof. unfold do_mask. now rewrite !put_length, repeat_length. Qed.
Lemma do_mask_nth (cols : list (six F)) ps j c : bounded (length cols) ps ->
  nth_error cols j = Some c -> nth_error (do_mask cols ps) j = Some (mem j ps && negb (nan6 c)).
Proof.
  intros Hb Hc. unfold do_mask. pose proof (nth_error_lt _ _ _ Hc) as Hj.
  destruct (mem j ps) eqn:Em.
  - apply mem_in in Em.
    rewrite (put_const (fun p => match nth_error cols p with Some c => negb (nan6 c) | None => true end)).
    + now rewrite Hc.
    + rewrite map_length. now apply pick_length.
    + intros i p v Hp Hv. rewrite nth_error_map, pick_nth, Hp in Hv by auto.
      destruct (nth_error cols p); cbn in Hv; congruence.
    + now rewrite put_length, repeat_length.
    + auto.
  - apply mem_false in Em. rewrite !put_other by auto. now apply nth_error_repeat.
Qed.
Lemma any_false m : any m = false -> forall j, nth_error m j <> Some true.
Proof.
  unfold any. intros E j Hj. apply nth_error_In in Hj.
  assert (existsb (fun b => b) m = true) by (apply existsb_exists; exists true; auto). congruence.
Qed.
Lemma any_true m : any m = true -> exists j, nth_error m j = Some true.
Proof.
  unfold any. intros E. apply existsb_exists in E. destruct E as [x [Hx ->]].
  apply In_nth_error in Hx. destruct Hx as [j Hj]. eauto.
Qed.

(** ** calculate_kepler *)
Definition setK (s : orb) (kep : list (six F)) (kf : list bool) : orb :=
  with_kf (fun _ => kf) (with_kep (fun _ => kep) s).
(** the Kepler elements (with the anomaly of the current type) of Cartesian elements [c] *)
Definition kconv (s : orb) (g : F * F) (c : six F) (m : F) : six F :=
  let k := c2k_col (odeg s) c (mu_of s m) in
  match otype s with
  | ATrue => k
  | AEcc => set5 k (t2e1 (fst g) (odeg s) (s5 k) (s1 k))
  | AMean => set5 k (t2m1 g (odeg s) (s5 k) (s1 k))
  end.
Definition Kspec (n f : nat) (inds : Idx) (ps : list nat) (s : orb) : Prop :=
  exists kep' kf' (W : nat -> bool) (g : nat -> F * F),
    calculate_kepler_f gb f inds s = (setK s kep' kf', Ok tt)
    /\ length kep' = n /\ length kf' = n
    /\ forall j c k m b,
         nth_error (ocart s) j = Some c -> nth_error (okep s) j = Some k ->
         nth_error (om s) j = Some m -> nth_error (okf s) j = Some b ->
         nth_error kep' j = Some (if W j then kconv s (g j) c m else k)
         /\ nth_error kf' j = Some (b || W j)
         /\ (W j = true -> nan6 c = false)
         /\ (mem j ps = true -> nan6 c = false -> W j = true)
         /\ (W j = true -> mem j ps = false -> lazy s = true /\ typed s = true /\ b = false).

Lemma setK_same s : setK s (okep s) (okf s) = s. Proof. now destruct s. Qed.
Lemma nth4 n s j : lens n s -> j < n -> exists c k m b cb,
  nth_error (ocart s) j = Some c /\ nth_error (okep s) j = Some k /\ nth_error (om s) j = Some m
  /\ nth_error (okf s) j = Some b /\ nth_error (ocf s) j = Some cb.
Proof.
  intros [] Hj.
  destruct (nth_error_some (ocart s) j) as [c Hc]; [lia|].
  destruct (nth_error_some (okep s) j) as [k Hk]; [lia|].
  destruct (nth_error_some (om s) j) as [m Hm]; [lia|].
  destruct (nth_error_some (okf s) j) as [b Hb]; [lia|].
  destruct (nth_error_some (ocf s) j) as [cb Hcb]; [lia|].
  now exists c, k, m, b, cb.
Qed.

Lemma K_none n f inds ps s : lens n s -> resolve n inds = Ok ps ->
  (forall j c, nth_error (ocart s) j = Some c -> mem j ps && negb (nan6 c) = false) ->
  Kspec n (S f) inds ps s.
Proof.
  intros Hs Hr Hno. exists (okep s), (okf s), (fun _ => false), (fun _ => (nan, nan)).
  destruct Hs. split; [|split; [auto|split; [auto|]]].
  - cbn [calculate_kepler_f]. unfold bind at 1, get at 1, bind at 1, lift at 1, num.
    rewrite l_k0, Hr.
    assert (Ea : any (do_mask (ocart s) ps) = false).
    { destruct (any _) eqn:Ea; auto. apply any_true in Ea. destruct Ea as [j Hj].
      pose proof (nth_error_lt _ _ _ Hj) as Hl. rewrite do_mask_length in Hl.
      destruct (nth_error_some (ocart s) j Hl) as [c Hc].
      rewrite (do_mask_nth _ _ _ c) in Hj; auto.
      - rewrite (Hno j c Hc) in Hj. discriminate.
      - rewrite l_c0. eapply resolve_bounded; eauto. }
    rewrite Ea. cbn [negb]. unfold ret. now rewrite setK_same.
  - intros j c k m b C1 C2 C3 C4. rewrite orb_false_r. repeat split; auto; try discriminate.
    intros Hm Hn. rewrite <- (Hno _ _ C1), Hm, Hn. reflexivity.
Qed.

Lemma c2k_mat l mus deg : length l = length mus ->
  from_mat (snd (cart_to_kep gb (KMat l) (MuV mus) deg)) = Ok (map2 (c2k_col deg) l mus).
Proof.
  intros El. unfold cart_to_kep, mu_bcast. rewrite <- El, Nat.eqb_refl. cbn [snd from_mat].
  now rewrite cart_to_kep_cols_map.
Qed.
Lemma k2c_mat g l mus deg : length l = length mus ->
  from_mat (snd (kep_to_cart g (KMat l) (MuV mus) deg))
  = Ok (map2 (fun k mu => k2c_col (edit_col deg k) mu) l mus).
Proof.
  intros El. unfold kep_to_cart, mu_mask. rewrite <- El, Nat.eqb_refl. cbn [snd from_mat].
  rewrite kep_to_cart_cols_map, kep_edit_map, map2_map_l; auto.
  now rewrite kep_edit_map, map_length.
Qed.

(** the part of calculate_kepler before the anomaly conversion *)
Lemma K_phase1 n inds ps s : lens n s -> resolve n inds = Ok ps ->
  let dm := do_mask (ocart s) ps in
  let kep1 := mset dm (map2 (c2k_col (odeg s)) (mget dm (ocart s))
                            (map (mu_of s) (mget dm (om s)))) (okep s) in
  let kf1 := mset_s dm true (okf s) in
  length kep1 = n /\ length kf1 = n /\ length dm = n
  /\ forall j c k m b,
       nth_error (ocart s) j = Some c -> nth_error (okep s) j = Some k ->
       nth_error (om s) j = Some m -> nth_error (okf s) j = Some b ->
       let w := mem j ps && negb (nan6 c) in
       nth_error dm j = Some w
       /\ nth_error kep1 j = Some (if w then c2k_col (odeg s) c (mu_of s m) else k)
       /\ nth_error kf1 j = Some (b || w).
Proof.
  intros Hs Hr dm kep1 kf1. destruct Hs.
  assert (Lk : length kep1 = n) by (unfold kep1; now rewrite mset_length).
  assert (Lf : length kf1 = n) by (unfold kf1; now rewrite mset_s_length).
  assert (Ld : length dm = n) by (unfold dm; now rewrite do_mask_length).
  split; [auto|]. split; [auto|]. split; [auto|].
  intros j c k m b C1 C2 C3 C4.
  assert (Hd : nth_error dm j = Some (mem j ps && negb (nan6 c)))
    by (apply do_mask_nth; auto; rewrite l_c0; eapply resolve_bounded; eauto).
  set (w := mem j ps && negb (nan6 c)) in *. cbv zeta. split; [exact Hd|]. split.
  - unfold kep1. rewrite mset_nth.
    + rewrite Hd, C2. destruct w; auto.
      rewrite nth_error_map2, nth_error_map, !mget_rank, C1, C3 by auto. reflexivity.
    + rewrite map2_length, map_length.
      rewrite (mget_length dm (om s) (ocart s)), (mget_length dm (okep s) (ocart s)) by lia. lia.
  - unfold kf1. rewrite mset_s_nth, Hd, C4. destruct w; [now rewrite orb_true_r|now rewrite orb_false_r].
Qed.

(** the second part: lines 489-501 *)
Definition kfinish (f : nat) (dm : list bool) (fn : arg F -> arg F -> bool -> res (arg F)) : M unit :=
  bind get (fun st1 =>
  let nu := mget dm (map s5 (okep st1)) in
  bind (if oauto st1 && negb (odirect st1)
        then calculate_kepler_f gb f (IMask (map negb (okf st1))) else ret tt) (fun _ =>
  bind get (fun st2 =>
  let e := mget dm (map s1 (okep st2)) in
  bind (lift (fn (fresh [length nu] nu) (fresh [length e] e) (odeg st2))) (fun x =>
  modify (with_kep (fun kep => map2 set5 kep (mset dm (adata x) (map s5 kep)))))))).
Lemma kfinish_spec n f dm fn (h : F * F -> bool -> F -> F -> F) (G : nat -> F * F) s kep2 kf2 :
  (forall l dx de deg, length dx = l -> length de = l ->
     fn (fresh [l] dx) (fresh [l] de) deg = Ok (fresh [l] (imap2 (fun j => h (G j) deg) 0 dx de))) ->
  lens n s -> length dm = n -> length kep2 = n ->
  (if lazy s then calculate_kepler_f gb f (IMask (map negb (okf s))) s else ret tt s)
    = (setK s kep2 kf2, Ok tt) ->
  (forall j, nth_error dm j = Some true -> nth_error kep2 j = nth_error (okep s) j) ->
  exists kep3 (g : nat -> F * F), kfinish f dm fn s = (setK s kep3 kf2, Ok tt) /\ length kep3 = n
    /\ forall j k, nth_error kep2 j = Some k ->
         nth_error kep3 j = Some match nth_error dm j with
                                 | Some true => set5 k (h (g j) (odeg s) (s5 k) (s1 k))
                                 | _ => k end.
Proof.
  intros Hfn Hs Ld L2 Hrun Hdm.
  set (nu := mget dm (map s5 (okep s))). set (e := mget dm (map s1 kep2)).
  assert (Lne : length nu = length e).
  { apply mget_length. rewrite !map_length. destruct Hs; lia. }
  set (x := imap2 (fun j => h (G j) (odeg s)) 0 nu e).
  exists (map2 set5 kep2 (mset dm x (map s5 kep2))), (fun j => G (rank dm j)).
  repeat split.
  - unfold kfinish. unfold bind at 1, get at 1. fold nu. unfold bind at 1. fold (lazy s).
    replace ((if lazy s then calculate_kepler_f gb f (IMask (map negb (okf s))) else ret tt) s)
      with (if lazy s then calculate_kepler_f gb f (IMask (map negb (okf s))) s else ret tt s)
      by now destruct (lazy s).
    rewrite Hrun. unfold bind at 1, get at 1, bind at 1, lift at 1.
    change (okep (setK s kep2 kf2)) with kep2. fold e.
    rewrite Lne, Hfn by auto. fold x. unfold modify. reflexivity.
  - rewrite map2_length, mset_length, map_length. lia.
  - intros j k Hk. rewrite nth_error_map2, Hk, mset_nth.
    2:{ unfold x. rewrite imap2_length.
        rewrite (mget_length dm (map s5 kep2) (map s1 kep2)) by now rewrite !map_length.
        fold e. lia. }
    rewrite nth_error_map, Hk. cbn [option_map].
    destruct (nth_error dm j) as [[|]|] eqn:Ej.
    + unfold x. rewrite imap2_nth. unfold nu, e. rewrite !mget_rank by auto.
      rewrite !nth_error_map, <- (Hdm j Ej), Hk. cbn [option_map Nat.add]. reflexivity.
    + now destruct k.
    + now destruct k.
Qed.

Lemma K_step n f inds ps s : lens n s -> resolve n inds = Ok ps ->
  (forall kep1 kf1, length kep1 = n -> length kf1 = n ->
     (forall j c b, nth_error (ocart s) j = Some c -> nth_error (okf s) j = Some b ->
        nth_error kf1 j = Some (b || (mem j ps && negb (nan6 c)))) ->
     lazy s = true ->
     exists ps1, resolve n (IMask (map negb kf1)) = Ok ps1
      /\ (forall j b, nth_error kf1 j = Some b -> mem j ps1 = negb b)
      /\ Kspec n f (IMask (map negb kf1)) ps1 (setK s kep1 kf1)) ->
  Kspec n (S f) inds ps s.
Proof.
  intros Hs Hr Hnest.
  destruct (K_phase1 n inds ps s Hs Hr) as [Lk1 [Lf1 [Ld H1]]].
  set (dm := do_mask (ocart s) ps) in *. cbv zeta in H1.
  set (kep1 := mset dm (map2 (c2k_col (odeg s)) (mget dm (ocart s)) (map (mu_of s) (mget dm (om s)))) (okep s)) in *.
  set (kf1 := mset_s dm true (okf s)) in *.
  destruct (any dm) eqn:Ea.
  2:{ apply K_none; auto. intros j c Hc.
      destruct (nth4 n s j Hs) as [c' [k [m [b [cb [E1 [E2 [E3 [E4 E5]]]]]]]]].
      { destruct Hs. apply nth_error_lt in Hc. lia. }
      rewrite Hc in E1. injection E1 as <-.
      destruct (H1 j c k m b) as [G _]; auto.
      destruct (mem j ps && negb (nan6 c)) eqn:W; auto. exfalso.
      now apply (any_false _ Ea j). }
  set (st1 := setK s kep1 kf1).
  assert (Hs1 : lens n st1) by (destruct Hs; constructor; auto).
  assert (Fin : forall fn (h : F * F -> bool -> F -> F -> F) G,
    (forall l dx de deg, length dx = l -> length de = l ->
     fn (fresh [l] dx) (fresh [l] de) deg = Ok (fresh [l] (imap2 (fun j => h (G j) deg) 0 dx de))) ->
    (forall g c m, kconv s g c m = let k := c2k_col (odeg s) c (mu_of s m) in
                                   set5 k (h g (odeg s) (s5 k) (s1 k))) ->
    typed s = true ->
    exists kep' kf' (W : nat -> bool) (g : nat -> F * F),
      kfinish f dm fn st1 = (setK s kep' kf', Ok tt)
      /\ length kep' = n /\ length kf' = n
      /\ forall j c k m b,
         nth_error (ocart s) j = Some c -> nth_error (okep s) j = Some k ->
         nth_error (om s) j = Some m -> nth_error (okf s) j = Some b ->
         nth_error kep' j = Some (if W j then kconv s (g j) c m else k)
         /\ nth_error kf' j = Some (b || W j)
         /\ (W j = true -> nan6 c = false)
         /\ (mem j ps = true -> nan6 c = false -> W j = true)
         /\ (W j = true -> mem j ps = false -> lazy s = true /\ typed s = true /\ b = false)).
  { intros fn h G Hfn Hkc Hty.
    assert (Nest : exists kep2 kf2 (W2 : nat -> bool) (g2 : nat -> F * F),
      (if lazy st1 then calculate_kepler_f gb f (IMask (map negb (okf st1))) st1 else ret tt st1)
        = (setK st1 kep2 kf2, Ok tt)
      /\ length kep2 = n /\ length kf2 = n
      /\ forall j c k m b, nth_error (ocart s) j = Some c -> nth_error kep1 j = Some k ->
         nth_error (om s) j = Some m -> nth_error kf1 j = Some b ->
         nth_error kep2 j = Some (if W2 j then kconv s (g2 j) c m else k)
         /\ nth_error kf2 j = Some (b || W2 j)
         /\ (W2 j = true -> nan6 c = false /\ b = false /\ lazy s = true)).
    { change (lazy st1) with (lazy s). destruct (lazy s) eqn:El.
      - destruct (Hnest kep1 kf1 Lk1 Lf1) as [ps1 [R1 [R2 R3]]]; auto.
        { intros j c b Hc Hb. destruct (nth4 n s j Hs) as [c' [k [m [b' [cb [E1 [E2 [E3 [E4 E5]]]]]]]]].
          { destruct Hs. apply nth_error_lt in Hc. lia. }
          apply (H1 j c k m b); auto. }
        destruct R3 as [kep2 [kf2 [W2 [g2 [E1 [E2 [E3 E4]]]]]]].
        exists kep2, kf2, W2, g2. split; [exact E1|]. split; [auto|]. split; [auto|].
        intros j c k m b C1 C2 C3 C4.
        destruct (E4 j c k m b C1 C2 C3 C4) as [Q1 [Q2 [Q3 [Q4 Q5]]]].
        split; [exact Q1|]. split; [exact Q2|]. intros HW. split; [now apply Q3|].
        split; auto. destruct b; auto. destruct (Q5 HW) as [_ [_ Q]]; auto.
        now rewrite (R2 j true).
      - exists kep1, kf1, (fun _ => false), (fun _ => (nan, nan)).
        unfold st1. split; [reflexivity|]. split; [auto|]. split; [auto|].
        intros j c k m b C1 C2 C3 C4. rewrite orb_false_r. repeat split; auto; discriminate. }
    destruct Nest as [kep2 [kf2 [W2 [g2 [E1 [E2 [E3 E4]]]]]]].
    assert (Col : forall j, j < n -> exists c k m b cb,
      nth_error (ocart s) j = Some c /\ nth_error (okep s) j = Some k /\ nth_error (om s) j = Some m
      /\ nth_error (okf s) j = Some b /\ nth_error (ocf s) j = Some cb)
      by (intros; now apply (nth4 n)).
    destruct (kfinish_spec n f dm fn h G st1 kep2 kf2 Hfn Hs1 Ld E2 E1) as [kep3 [g [Q1 [Q2 Q3]]]].
    { intros j Hj. destruct (Col j) as [c [k [m [b [cb [C1 [C2 [C3 [C4 C5]]]]]]]]].
      { apply nth_error_lt in Hj. lia. }
      destruct (H1 j c k m b) as [Hd [Hk Hf]]; auto. rewrite Hd in Hj. injection Hj as Hj.
      rewrite Hj in *. rewrite orb_true_r in Hf.
      destruct (E4 j c _ m _ C1 Hk C3 Hf) as [P1 [P2 P3]].
      change (okep st1) with kep1. rewrite P1, Hk. destruct (W2 j); auto.
      destruct P3 as [_ [P3 _]]; auto; discriminate. }
    exists kep3, kf2, (fun j => match nth_error dm j with Some true => true | _ => W2 j end),
      (fun j => match nth_error dm j with Some true => g j | _ => g2 j end).
    split; [exact Q1|]. split; [auto|]. split; [auto|].
    intros j c k m b C1 C2 C3 C4.
    destruct (H1 j c k m b) as [Hd [Hk Hf]]; auto. rewrite Hd.
    destruct (E4 j c _ m _ C1 Hk C3 Hf) as [P1 [P2 P3]].
    rewrite (Q3 j _ P1), Hd, P2.
    destruct (mem j ps && negb (nan6 c)) eqn:W.
    - apply andb_true_iff in W. destruct W as [W1 W2']. apply negb_true_iff in W2'.
      destruct (W2 j); [destruct P3 as [_ [P3 _]]; auto; rewrite orb_true_r in P3; discriminate|].
      rewrite orb_true_r. repeat split; auto; try congruence. now rewrite Hkc.
    - rewrite orb_false_r in *. repeat split; auto.
      + intros W'. now apply P3.
      + intros Hm Hn. rewrite Hm, Hn in W. discriminate.
      + now apply P3.
      + now apply P3. }
  assert (Elen : length (mget dm (ocart s)) = length (map (mu_of s) (mget dm (om s)))).
  { rewrite map_length. apply mget_length. destruct Hs; lia. }
  cbn [calculate_kepler_f].
  unfold Kspec. cbn [calculate_kepler_f].
  unfold bind at 1, get at 1, bind at 1, lift at 1, num.
  rewrite (l_k n s Hs), Hr. fold dm. rewrite Ea. cbn [negb].
  unfold bind at 1, modify at 1, bind at 1, get at 1, bind at 1, lift at 1.
  cbn [with_kf ocart om okep odeg otype].
  change (mu_of (with_kf (mset_s dm true) s)) with (mu_of s).
  rewrite (c2k_mat _ _ _ Elen).
  unfold bind at 1, modify at 1.
  change (with_kep (mset dm (map2 (c2k_col (odeg s)) (mget dm (ocart s)) (map (mu_of s) (mget dm (om s)))))
            (with_kf (mset_s dm true) s)) with st1.
  destruct (otype s) eqn:Et.
  - (* type true: nothing more *)
    exists kep1, kf1, (fun j => match nth_error dm j with Some w => w | None => false end), (fun _ => (nan, nan)).
    split; [reflexivity|]. split; [auto|]. split; [auto|].
    intros j c k m b C1 C2 C3 C4. destruct (H1 j c k m b) as [Hd [Hk Hf]]; auto. rewrite Hd.
    split; [unfold kconv; rewrite Et; exact Hk|]. split; [exact Hf|].
    destruct (mem j ps), (nan6 c); repeat split; auto; discriminate.
  - change (exists kep' kf' (W : nat -> bool) (g : nat -> F * F),
      kfinish f dm (true_to_eccentric (gb 20)) st1 = (setK s kep' kf', Ok tt)
      /\ length kep' = n /\ length kf' = n
    /\ forall j c k m b,
         nth_error (ocart s) j = Some c -> nth_error (okep s) j = Some k ->
         nth_error (om s) j = Some m -> nth_error (okf s) j = Some b ->
         nth_error kep' j = Some (if W j then kconv s (g j) c m else k)
         /\ nth_error kf' j = Some (b || W j)
         /\ (W j = true -> nan6 c = false)
         /\ (mem j ps = true -> nan6 c = false -> W j = true)
         /\ (W j = true -> mem j ps = false -> lazy s = true /\ typed s = true /\ b = false)).
    apply (Fin (true_to_eccentric (gb 20)) (fun g => t2e1 (fst g)) (fun j => (gb 20 j, nan))).
    + intros. now apply t2e_arr.
    + intros. unfold kconv. now rewrite Et.
    + unfold typed. now rewrite Et.
  - change (exists kep' kf' (W : nat -> bool) (g : nat -> F * F),
      kfinish f dm (true_to_mean (gb 20) (gb 21)) st1 = (setK s kep' kf', Ok tt)
      /\ length kep' = n /\ length kf' = n
    /\ forall j c k m b,
         nth_error (ocart s) j = Some c -> nth_error (okep s) j = Some k ->
         nth_error (om s) j = Some m -> nth_error (okf s) j = Some b ->
         nth_error kep' j = Some (if W j then kconv s (g j) c m else k)
         /\ nth_error kf' j = Some (b || W j)
         /\ (W j = true -> nan6 c = false)
         /\ (mem j ps = true -> nan6 c = false -> W j = true)
         /\ (W j = true -> mem j ps = false -> lazy s = true /\ typed s = true /\ b = false)).
    apply (Fin (true_to_mean (gb 20) (gb 21)) t2m1 (fun j => (gb 20 j, gb 21 j))).
    + intros. now apply t2m_arr.
    + intros. unfold kconv. now rewrite Et.
    + unfold typed. now rewrite Et.
Qed.


Lemma mem_stale n kf ps : resolve n (IMask (map negb kf)) = Ok ps ->
  forall j b, nth_error kf j = Some b -> mem j ps = negb b.
Proof.
  unfold resolve. cbn [resolve_gen]. destruct (Nat.eqb _ n); [|discriminate]. intros E j b Hb.
  injection E as <-. destruct (mem j _) eqn:Em.
  - apply mem_in, true_positions_in in Em. destruct Em as [_ Em].
    rewrite Nat.sub_0_r, nth_error_map, Hb in Em. now injection Em as ->.
  - apply mem_false in Em. destruct b; auto. exfalso. apply Em. apply true_positions_in.
    split; [lia|]. now rewrite Nat.sub_0_r, nth_error_map, Hb.
Qed.
Lemma resolve_stale n kf : length kf = n -> exists ps, resolve n (IMask (map negb kf)) = Ok ps.
Proof.
  intros E. destruct (resolve_mask n (map negb kf)) as [ps [Hp _]]; [now rewrite map_length|eauto].
Qed.

Lemma K_idle n f s ps : lens n s -> resolve n (IMask (map negb (okf s))) = Ok ps ->
  (forall j c b, nth_error (ocart s) j = Some c -> nth_error (okf s) j = Some b -> b || nan6 c = true) ->
  Kspec n (S f) (IMask (map negb (okf s))) ps s.
Proof.
  intros Hs Hp Hno. apply K_none; auto. intros j c Hc.
  destruct (nth_error_some (okf s) j) as [b Hb].
  { destruct Hs. apply nth_error_lt in Hc. lia. }
  rewrite (mem_stale _ _ _ Hp j b Hb). specialize (Hno j c b Hc Hb).
  destruct b, (nan6 c); auto; discriminate.
Qed.
Lemma K_stale n f s ps : lens n s -> resolve n (IMask (map negb (okf s))) = Ok ps ->
  Kspec n (S (S f)) (IMask (map negb (okf s))) ps s.
Proof.
  intros Hs Hp. apply K_step; auto. intros kep1 kf1 Lk Lf Hkf _.
  destruct (resolve_stale n kf1 Lf) as [ps1 R1]. exists ps1. split; [auto|].
  split; [now apply mem_stale with n|].
  apply (K_idle n f (setK s kep1 kf1)); auto.
  - destruct Hs; constructor; auto.
  - cbn [setK with_kf with_kep ocart okf]. intros j c b Hc Hb.
    destruct (nth_error_some (okf s) j) as [b0 Hb0].
    { destruct Hs. apply nth_error_lt in Hc. lia. }
    rewrite (Hkf j c b0 Hc Hb0) in Hb. injection Hb as <-.
    rewrite (mem_stale _ _ _ Hp j b0 Hb0). now destruct b0, (nan6 c).
Qed.
(** calculate_kepler never runs out of the recursion depth 3 *)
Lemma calculate_kepler_spec n f inds ps s : lens n s -> resolve n inds = Ok ps ->
  Kspec n (S (S (S f))) inds ps s.
Proof.
  intros Hs Hp. apply K_step; auto. intros kep1 kf1 Lk Lf Hkf _.
  destruct (resolve_stale n kf1 Lf) as [ps1 R1]. exists ps1. split; [auto|].
  split; [now apply mem_stale with n|].
  apply (K_stale n f (setK s kep1 kf1)); auto. destruct Hs; constructor; auto.
Qed.
Lemma calculate_kepler_raise n s inds e : lens n s -> resolve n inds = Raise e ->
  calculate_kepler gb inds s = (s, Raise e).
Proof.
  intros Hs Hr. unfold calculate_kepler. cbn [calculate_kepler_f].
  unfold bind at 1, get at 1, bind at 1, lift at 1, num. now rewrite (l_k n s Hs), Hr.
Qed.
Lemma lens_setK n s kep kf : lens n s -> length kep = n -> length kf = n -> lens n (setK s kep kf).
Proof. intros [] ? ?. constructor; auto. Qed.

(** ** _kep_check *)
Lemma kep_check_spec n s : lens n s -> exists kep' kf' (W : nat -> bool) (g : nat -> F * F),
  kep_check gb s = (setK s kep' kf', Ok tt) /\ length kep' = n /\ length kf' = n
  /\ forall j c k m b,
         nth_error (ocart s) j = Some c -> nth_error (okep s) j = Some k ->
         nth_error (om s) j = Some m -> nth_error (okf s) j = Some b ->
         W j = lazy s && negb b && negb (nan6 c)
         /\ nth_error kep' j = Some (if W j then kconv s (g j) c m else k)
         /\ nth_error kf' j = Some (b || W j).
Proof.
  intros Hs. unfold kep_check, bind, get. fold (lazy s). destruct (lazy s) eqn:El.
  - destruct (resolve_stale n (okf s)) as [ps Hp]; [now destruct Hs|].
    destruct (calculate_kepler_spec n 0 _ ps s Hs Hp) as [kep' [kf' [W [g [E1 [E2 [E3 E4]]]]]]].
    exists kep', kf', W, g. split; [exact E1|]. split; [auto|]. split; [auto|].
    intros j c k m b C1 C2 C3 C4. destruct (E4 j c k m b C1 C2 C3 C4) as [Q1 [Q2 [Q3 [Q4 Q5]]]].
    split; auto. rewrite (mem_stale _ _ _ Hp j b C4) in *.
    destruct (W j).
    + rewrite Q3 by auto. destruct b; auto. destruct (Q5 eq_refl eq_refl) as [_ [_ ?]]. discriminate.
    + destruct b; auto. destruct (nan6 c); auto.
  - exists (okep s), (okf s), (fun _ => false), (fun _ => (nan, nan)).
    unfold ret. rewrite setK_same. destruct Hs. repeat split; auto. now rewrite orb_false_r.
Qed.
Lemma kep_check_id s : lazy s = false -> kep_check gb s = (s, Ok tt).
Proof. intros E. unfold kep_check, bind, get. fold (lazy s). now rewrite E. Qed.
Lemma kep_check_fresh n s : lens n s ->
  (forall j c b, nth_error (ocart s) j = Some c -> nth_error (okf s) j = Some b -> b || nan6 c = true) ->
  kep_check gb s = (s, Ok tt).
Proof.
  intros Hs Hf. destruct (kep_check_spec n s Hs) as [kep' [kf' [W [g [E1 [E2 [E3 E4]]]]]]].
  rewrite E1. f_equal. rewrite <- (setK_same s) at 2.
  assert (A : forall j c k m b cb, 
      nth_error (ocart s) j = Some c /\ nth_error (okep s) j = Some k /\ nth_error (om s) j = Some m
      /\ nth_error (okf s) j = Some b /\ nth_error (ocf s) j = Some cb ->
      nth_error kep' j = Some k /\ nth_error kf' j = Some b).
  { intros j c k m b cb [C1 [C2 [C3 [C4 _]]]]. destruct (E4 j c k m b C1 C2 C3 C4) as [Q1 [Q2 Q3]].
    rewrite Q2, Q3, Q1. specialize (Hf j c b C1 C4).
    destruct b, (nan6 c), (lazy s); try discriminate; auto. }
  f_equal; apply nth_error_ext; intros j; (destruct (lt_dec j n) as [Hj|Hj];
    [destruct (nth4 n s j Hs Hj) as [c [k [m [b [cb C]]]]]; destruct (A j c k m b cb C) as [A1 A2];
     destruct C as [_ [C2 [_ [C4 _]]]]; congruence
    |rewrite !(proj2 (nth_error_None _ _)); auto; destruct Hs; lia]).
Qed.
Lemma kep_check_twice n s : lens n s ->
  kep_check gb (fst (kep_check gb s)) = (fst (kep_check gb s), Ok tt).
Proof.
  intros Hs. destruct (lazy s) eqn:El.
  2:{ rewrite (kep_check_id s El). cbn [fst]. now apply kep_check_id. }
  destruct (kep_check_spec n s Hs) as [kep' [kf' [W [g [E1 [E2 [E3 E4]]]]]]].
  rewrite E1. cbn [fst]. apply (kep_check_fresh n). { now apply lens_setK. }
  cbn [setK with_kf with_kep ocart okf]. intros j c b Hc Hb.
  destruct (nth4 n s j Hs) as [c' [k [m [b0 [cb [C1 [C2 [C3 [C4 C5]]]]]]]]].
  { destruct Hs. apply nth_error_lt in Hc. lia. }
  assert (c' = c) as -> by congruence.
  destruct (E4 j c k m b0 C1 C2 C3 C4) as [Q1 [Q2 Q3]]. rewrite Q3 in Hb. injection Hb as <-.
  rewrite Q1, El. now destruct b0, (nan6 c).
Qed.
Lemma kep_check_ok n s : lens n s -> kep_check gb s = (fst (kep_check gb s), Ok tt)
  /\ lens n (fst (kep_check gb s)) /\ settings (fst (kep_check gb s)) = settings s
  /\ ocart (fst (kep_check gb s)) = ocart s /\ om (fst (kep_check gb s)) = om s
  /\ onu (fst (kep_check gb s)) = onu s /\ oMa (fst (kep_check gb s)) = oMa s
  /\ ocf (fst (kep_check gb s)) = ocf s /\ oE (fst (kep_check gb s)) = oE s
  /\ oit (fst (kep_check gb s)) = oit s.
Proof.
  intros Hs. destruct (kep_check_spec n s Hs) as [kep' [kf' [W [g [E1 [E2 [E3 E4]]]]]]].
  rewrite E1. cbn [fst]. split; [reflexivity|]. split; [now apply lens_setK|]. repeat split.
Qed.

(** ** Reading rows and computing anomalies *)
Definition kchk (s : orb) : orb := fst (kep_check gb s).
Lemma get_kep_row_spec n k s : lens n s ->
  get_kep_row gb k s = (kchk s, Ok (map (row_get k) (okep (kchk s)))).
Proof.
  intros Hs. unfold get_kep_row, bind, kchk. destruct (kep_check_ok n s Hs) as [E _]. rewrite E at 1.
  reflexivity.
Qed.
(** an int gives a scalar, a slice with negative step a reversed view *)
Definition is_int (i : Idx) : bool :=
  match i with IInt _ => true | ISlice _ _ step => (step <? 0)%Z | _ => false end.
Lemma sel_spec (row : list F) inds ps : is_int inds = false -> resolve (length row) inds = Ok ps ->
  sel row inds = Ok (fresh [length ps] (pick ps row)).
Proof.
  intros Hi Hr. unfold sel. rewrite Hr. cbn [rbind].
  rewrite pick_length by (eapply resolve_bounded; eauto).
  destruct inds; cbn [is_int] in Hi; try discriminate; try reflexivity. rewrite Hi. unfold fresh.
  now rewrite pick_length by (eapply resolve_bounded; eauto).
Qed.
Lemma assign_spec (row vs : list F) inds ps : resolve (length row) inds = Ok ps ->
  length vs = length ps -> assign row inds (fresh [length ps] vs) = Ok (put ps vs row).
Proof. intros Hr E. unfold assign. rewrite Hr. cbn [rbind]. now rewrite bcast1_fresh. Qed.

(** the three anomalies of a column, read off the stored one *)
Definition nu1 (s : orb) (g : F) (k : six F) : F :=
  match otype s with
  | ATrue => s5 k
  | AEcc => e2t1 g (odeg s) (s5 k) (s1 k)
  | AMean => m2t1 g (oopts s) (odeg s) (s5 k) (s1 k)
  end.
Definition ma1 (s : orb) (g : F * F) (k : six F) : F :=
  match otype s with
  | AMean => s5 k
  | AEcc => e2m1 (fst g) (odeg s) (s5 k) (s1 k)
  | ATrue => t2m1 g (odeg s) (s5 k) (s1 k)
  end.
Definition ec1 (s : orb) (g : F) (k : six F) : F :=
  match otype s with
  | AEcc => s5 k
  | ATrue => t2e1 g (odeg s) (s5 k) (s1 k)
  | AMean => m2e1 (oopts s) (odeg s) (s5 k) (s1 k)
  end.

Lemma settings_eq s s' : settings s = settings s' ->
  oM0 s = oM0 s' /\ oG s = oG s' /\ oauto s = oauto s' /\ odirect s = odirect s'
  /\ okro s = okro s' /\ ocro s = ocro s' /\ odeg s = odeg s' /\ otype s = otype s' /\ oopts s = oopts s'.
Proof. unfold settings. intros E. repeat split; congruence. Qed.

Section Calc.
Variables (n : nat) (s : orb) (inds : Idx) (ps : list nat).
Hypotheses (Hs : lens n s) (Hi : is_int inds = false) (Hr : resolve n inds = Ok ps).
Let s' := kchk s.
Lemma Lk' : length (okep s') = n.
Proof. unfold s', kchk. now destruct (kep_check_ok n s Hs) as [_ [[] _]]. Qed.
Lemma bnd : bounded n ps. Proof. eapply resolve_bounded; eauto. Qed.
Lemma kchk2 : kchk s' = s'.
Proof. unfold s', kchk. now rewrite (kep_check_twice n s Hs). Qed.
Lemma lens' : lens n s'.
Proof. unfold s', kchk. now destruct (kep_check_ok n s Hs) as [_ [? _]]. Qed.
Lemma sel' k : sel (map (row_get k) (okep s')) inds = Ok (fresh [length ps] (pick ps (map (row_get k) (okep s')))).
Proof. apply sel_spec; auto. now rewrite map_length, Lk'. Qed.
Lemma pick_len' k : length (pick ps (map (row_get k) (okep s'))) = length ps.
Proof. apply pick_length. rewrite map_length, Lk'. apply bnd. Qed.
(** an array conversion of the selected anomalies has the entries [f g k] *)
Lemma conv_entries {G} (f : G -> F -> F -> F) (g : nat -> G) i p k :
  nth_error ps i = Some p -> nth_error (okep s') p = Some k ->
  nth_error (imap2 (fun j => f (g j)) 0 (pick ps (map (row_get 5) (okep s'))) (pick ps (map (row_get 1) (okep s')))) i
  = Some (f (g i) (s5 k) (s1 k)).
Proof.
  intros Hp Hk. rewrite imap2_nth, !pick_nth by (rewrite map_length, Lk'; apply bnd).
  rewrite Hp, !nth_error_map, Hk. reflexivity.
Qed.
Definition entries_of (f : six F -> F -> Prop) (vs : list F) : Prop :=
  length vs = length ps /\ forall i p k, nth_error ps i = Some p -> nth_error (okep s') p = Some k ->
    exists v, nth_error vs i = Some v /\ f k v.
Lemma imap_len f : length (imap2 f 0 (pick ps (map (row_get 5) (okep s'))) (pick ps (map (row_get 1) (okep s'))) : list F)
  = length ps.
Proof. rewrite imap2_length, !pick_len'. lia. Qed.

Lemma calc_true_spec : exists vs,
  calc_true_anomaly gb inds s = (with_nu (fun _ => put ps vs (onu s)) s', Ok tt)
  /\ entries_of (fun k v => exists g, v = nu1 s g k) vs.
Proof.
  destruct (kep_check_ok n s Hs) as [E [Ln' [Hset [_ [_ [Hnu _]]]]]].
  unfold calc_true_anomaly. unfold bind at 1, get at 1.
  destruct (settings_eq _ _ Hset) as [_ [_ [_ [_ [_ [_ [Hd [Ht Ho]]]]]]]].
  unfold nu1. destruct (otype s) eqn:Et.
  - exists (pick ps (map (row_get 5) (okep s'))). split.
    + unfold bind at 1, bind at 1, get_anom. rewrite (get_kep_row_spec n) by auto. fold s'.
      unfold lift at 1. rewrite sel'. unfold bind at 1, get at 1, bind at 1, lift at 1.
      rewrite assign_spec; [|destruct lens'; congruence|apply pick_len'].
      unfold modify. unfold s', kchk. rewrite Hnu. reflexivity.
    + split; [apply pick_len'|]. intros i p k Hp Hk. exists (s5 k). split; [|exists nan; auto].
      rewrite pick_nth, Hp, nth_error_map, Hk by (rewrite map_length, Lk'; apply bnd). reflexivity.
  - exists (imap2 (fun j => e2t1 (gb 22 j) (odeg s)) 0 (pick ps (map (row_get 5) (okep s'))) (pick ps (map (row_get 1) (okep s')))).
    split.
    + unfold bind at 1, bind at 1, get_anom, get_e. rewrite (get_kep_row_spec n) by auto. fold s'.
      unfold bind at 1, lift at 1. rewrite sel'. unfold bind at 1.
      rewrite (get_kep_row_spec n) by apply lens'. rewrite kchk2.
      unfold bind at 1, lift at 1. rewrite sel'. unfold lift at 1.
      rewrite e2t_arr by apply pick_len'.
      unfold bind at 1, get at 1, bind at 1, lift at 1.
      rewrite assign_spec; [|destruct lens'; congruence|apply imap_len].
      unfold modify. unfold s', kchk. rewrite Hnu. reflexivity.
    + split; [apply imap_len|]. intros i p k Hp Hk. eexists. split.
      * now apply (conv_entries (fun g => e2t1 g (odeg s)) (gb 22) i p k).
      * eauto.
  - exists (imap2 (fun j => m2t1 (gb 22 j) (oopts s) (odeg s)) 0 (pick ps (map (row_get 5) (okep s'))) (pick ps (map (row_get 1) (okep s')))).
    split.
    + unfold bind at 1, bind at 1, get_anom, get_e. rewrite (get_kep_row_spec n) by auto. fold s'.
      unfold bind at 1, lift at 1. rewrite sel'. unfold bind at 1.
      rewrite (get_kep_row_spec n) by apply lens'. rewrite kchk2.
      unfold bind at 1, lift at 1. rewrite sel'. unfold lift at 1.
      rewrite m2t_arr by apply pick_len'.
      unfold bind at 1, get at 1, bind at 1, lift at 1.
      rewrite assign_spec; [|destruct lens'; congruence|apply imap_len].
      unfold modify. unfold s', kchk. rewrite Hnu. reflexivity.
    + split; [apply imap_len|]. intros i p k Hp Hk. eexists. split.
      * now apply (conv_entries (fun g => m2t1 g (oopts s) (odeg s)) (gb 22) i p k).
      * eauto.
Qed.
Lemma calc_mean_spec : exists vs,
  calc_mean_anomaly gb inds s = (with_Ma (fun _ => put ps vs (oMa s)) s', Ok tt)
  /\ entries_of (fun k v => exists g, v = ma1 s g k) vs.
Proof.
  destruct (kep_check_ok n s Hs) as [E [Ln' [Hset [_ [_ [_ [Hma _]]]]]]].
  unfold calc_mean_anomaly. unfold bind at 1, get at 1.
  destruct (settings_eq _ _ Hset) as [_ [_ [_ [_ [_ [_ [Hd [Ht Ho]]]]]]]].
  unfold ma1. destruct (otype s) eqn:Et.
  - exists (imap2 (fun j => t2m1 (gb 23 j, gb 24 j) (odeg s)) 0 (pick ps (map (row_get 5) (okep s'))) (pick ps (map (row_get 1) (okep s')))).
    split.
    + unfold bind at 1, bind at 1, get_anom, get_e. rewrite (get_kep_row_spec n) by auto. fold s'.
      unfold bind at 1, lift at 1. rewrite sel'. unfold bind at 1.
      rewrite (get_kep_row_spec n) by apply lens'. rewrite kchk2.
      unfold bind at 1, lift at 1. rewrite sel'. unfold lift at 1.
      rewrite t2m_arr by apply pick_len'.
      unfold bind at 1, get at 1, bind at 1, lift at 1.
      rewrite assign_spec; [|destruct lens'; congruence|apply imap_len].
      unfold modify. unfold s', kchk. rewrite Hma. reflexivity.
    + split; [apply imap_len|]. intros i p k Hp Hk. eexists. split.
      * now apply (conv_entries (fun g => t2m1 g (odeg s)) (fun j => (gb 23 j, gb 24 j)) i p k).
      * eauto.
  - exists (imap2 (fun j => e2m1 (gb 23 j) (odeg s)) 0 (pick ps (map (row_get 5) (okep s'))) (pick ps (map (row_get 1) (okep s')))).
    split.
    + unfold bind at 1, bind at 1, get_anom, get_e. rewrite (get_kep_row_spec n) by auto. fold s'.
      unfold bind at 1, lift at 1. rewrite sel'. unfold bind at 1.
      rewrite (get_kep_row_spec n) by apply lens'. rewrite kchk2.
      unfold bind at 1, lift at 1. rewrite sel'. unfold lift at 1.
      rewrite e2m_arr by apply pick_len'.
      unfold bind at 1, get at 1, bind at 1, lift at 1.
      rewrite assign_spec; [|destruct lens'; congruence|apply imap_len].
      unfold modify. unfold s', kchk. rewrite Hma. reflexivity.
    + split; [apply imap_len|]. intros i p k Hp Hk. eexists. split.
      * now apply (conv_entries (fun g => e2m1 g (odeg s)) (gb 23) i p k).
      * now exists (gb 23 i, nan).
  - exists (pick ps (map (row_get 5) (okep s'))). split.
    + unfold bind at 1, bind at 1, get_anom. rewrite (get_kep_row_spec n) by auto. fold s'.
      unfold lift at 1. rewrite sel'. unfold bind at 1, get at 1, bind at 1, lift at 1.
      rewrite assign_spec; [|destruct lens'; congruence|apply pick_len'].
      unfold modify. unfold s', kchk. rewrite Hma. reflexivity.
    + split; [apply pick_len'|]. intros i p k Hp Hk. exists (s5 k). split; [|exists (nan, nan); auto].
      rewrite pick_nth, Hp, nth_error_map, Hk by (rewrite map_length, Lk'; apply bnd). reflexivity.
Qed.
End Calc.

(** ** calculate_cartesian *)
Definition setC (s : orb) (cart : list (six F)) (cf : list bool) (nu : list F)
    (kep : list (six F)) (kf : list bool) : orb :=
  with_cart (fun _ => cart) (with_cf (fun _ => cf) (with_nu (fun _ => nu) (setK s kep kf))).
(** Cartesian elements from Kepler elements [k] with true anomaly [nu] *)
Definition cconv (s : orb) (nu : F) (k : six F) (m : F) : six F :=
  k2c_col (edit_col (odeg s) (set5 k nu)) (mu_of s m).
Lemma lens_setC n s c cf nu k kf : lens n s -> length c = n -> length cf = n -> length nu = n ->
  length k = n -> length kf = n -> lens n (setC s c cf nu k kf).
Proof. intros [] ? ? ? ? ?. constructor; auto. Qed.

Lemma calculate_cartesian_raise n s inds e : lens n s -> resolve n inds = Raise e ->
  calculate_cartesian gb inds s = (s, Raise e).
Proof.
  intros Hs Hr. unfold calculate_cartesian.
  unfold bind at 1, get at 1, bind at 1, lift at 1, num. now rewrite (l_k n s Hs), Hr.
Qed.
Lemma set5_id (k : six F) : set5 k (s5 k) = k. Proof. now destruct k. Qed.

Lemma bind_get_ret {A} (m : M A) (s st : orb) (v : A) :
  bind m (fun kt => bind get (fun s2 : orb => ret (s2, kt))) s = (st, Ok (st, v)) -> m s = (st, Ok v).
Proof.
  unfold bind, get, ret. destruct (m s) as [s' [x|e]]; [|discriminate]. intros E. injection E; intros; now subst.
Qed.
Lemma set5_map (l : list (six F)) : map2 set5 l (map s5 l) = l.
Proof. induction l as [|k l IH]; cbn; [auto|]. now rewrite set5_id, IH. Qed.

Lemma calculate_cartesian_spec n inds ps s : lens n s -> resolve n inds = Ok ps ->
  exists cart' cf' nu' kep' kf' (W2 : nat -> bool) (g2 : nat -> F * F),
    calculate_cartesian gb inds s = (setC s cart' cf' nu' kep' kf', Ok tt)
    /\ length cart' = n /\ length cf' = n /\ length nu' = n /\ length kep' = n /\ length kf' = n
    /\ (typed s = false -> nu' = onu s)
    /\ forall j c k m b cb,
         nth_error (ocart s) j = Some c -> nth_error (okep s) j = Some k ->
         nth_error (om s) j = Some m -> nth_error (okf s) j = Some b -> nth_error (ocf s) j = Some cb ->
         let W := mem j ps && negb (nan6 k) in
         let k' := if W2 j then kconv s (g2 j) c m else k in
         nth_error cf' j = Some (cb || W)
         /\ nth_error kep' j = Some k'
         /\ nth_error kf' j = Some (b || W2 j)
         /\ (exists g, nth_error cart' j = Some (if W then cconv s (nu1 s g k') k m else c))
         /\ (W2 j = true -> lazy s = true /\ typed s = true /\ b = false /\ nan6 c = false)
         /\ (W = true -> lazy s = true -> typed s = true -> b = false -> nan6 c = false -> W2 j = true).
Proof.
  intros Hs Hr.
  assert (Hb : bounded n ps) by (eapply resolve_bounded; eauto).
  set (dm := do_mask (okep s) ps).
  assert (Ld : length dm = n) by (unfold dm; rewrite do_mask_length; now destruct Hs).
  assert (Hdm : forall j k, nth_error (okep s) j = Some k -> nth_error dm j = Some (mem j ps && negb (nan6 k))).
  { intros j k Hk. apply do_mask_nth; auto. now rewrite (l_k n s Hs). }
  destruct (any dm) eqn:Ea.
  2:{ exists (ocart s), (ocf s), (onu s), (okep s), (okf s), (fun _ => false), (fun _ => (nan, nan)).
      destruct Hs. split.
      { unfold calculate_cartesian. unfold bind at 1, get at 1, bind at 1, lift at 1, num.
        rewrite l_k0, Hr. fold dm. rewrite Ea. cbn [negb]. unfold ret. f_equal. now destruct s. }
      split; [auto|]. split; [auto|]. split; [auto|]. split; [auto|]. split; [auto|]. split; [auto|].
      intros j c k m b cb C1 C2 C3 C4 C5.
      assert (W0 : mem j ps && negb (nan6 k) = false).
      { destruct (mem j ps && negb (nan6 k)) eqn:W; auto. exfalso. apply (any_false _ Ea j).
        now rewrite (Hdm j k C2), W. }
      cbv zeta. rewrite W0, !orb_false_r.
      split; [auto|]. split; [auto|]. split; [auto|]. split; [now exists nan|]. split; discriminate. }
  set (sc := with_cf (mset_s dm true) s).
  assert (Hsc : lens n sc).
  { unfold sc. destruct Hs; constructor; cbn; auto. now rewrite mset_s_length. }
  assert (Lmk : length (mget dm (okep s)) = length (map (mu_of s) (mget dm (om s)))).
  { rewrite map_length. apply mget_length. destruct Hs; lia. }
  (* the anomaly part *)
  assert (An : exists st1 (nus : list F) nu' kep' kf' (W2 : nat -> bool) (g2 : nat -> F * F),
    bind match otype s with
         | ATrue => ret (mget dm (okep s))
         | _ => bind (calc_true_anomaly gb (IMask dm)) (fun _ =>
                bind get (fun s => ret (map2 set5 (mget dm (okep sc)) (mget dm (onu s)))))
         end (fun kt => bind get (fun s2 => ret (s2, kt))) sc
      = (st1, Ok (st1, map2 set5 (mget dm (okep s)) nus))
    /\ st1 = with_cf (fun _ => mset_s dm true (ocf s)) (with_nu (fun _ => nu') (setK s kep' kf'))
    /\ length nus = length (mget dm (okep s))
    /\ length nu' = n /\ length kep' = n /\ length kf' = n
    /\ (typed s = false -> nu' = onu s)
    /\ forall j c k m b,
         nth_error (ocart s) j = Some c -> nth_error (okep s) j = Some k ->
         nth_error (om s) j = Some m -> nth_error (okf s) j = Some b ->
         let k' := if W2 j then kconv s (g2 j) c m else k in
         nth_error kep' j = Some k'
         /\ nth_error kf' j = Some (b || W2 j)
         /\ (nth_error dm j = Some true -> exists g, nth_error nus (rank dm j) = Some (nu1 s g k'))
         /\ W2 j = lazy s && typed s && negb b && negb (nan6 c)).
  { destruct (typed s) eqn:Ety.
    - destruct (kep_check_spec n sc Hsc) as [kep' [kf' [W2 [g2 [E1 [E2 [E3 E4]]]]]]].
      destruct (resolve_mask n dm Ld) as [psd [Hpd Hin]].
      assert (Epd : psd = true_positions 0 dm).
      { unfold resolve in Hpd. cbn in Hpd. rewrite Ld, Nat.eqb_refl in Hpd. now injection Hpd as <-. }
      destruct (calc_true_spec n sc (IMask dm) psd Hsc eq_refl Hpd) as [vs [T1 [T2 T3]]].
      assert (Lv : length vs = length (mget dm (okep s))).
      { rewrite T2, Epd, <- (pick_length (true_positions 0 dm) (okep s)).
        - rewrite pick_positions; auto. destruct Hs; lia.
        - rewrite <- Epd. destruct Hs. rewrite l_k0. eapply resolve_bounded; eauto. }
      assert (Ek : kchk sc = setK sc kep' kf') by (unfold kchk; now rewrite E1).
      exists (with_nu (fun _ => put psd vs (onu s)) (setK sc kep' kf')), vs,
        (put psd vs (onu s)), kep', kf', W2, g2.
      assert (Emv : mget dm (put psd vs (onu s)) = vs).
      { rewrite Epd, put_positions; [apply mget_mset| |].
        - rewrite Lv. apply mget_length. destruct Hs; lia.
        - destruct Hs; lia.
        - now rewrite <- Epd. }
      split.
      { assert (R1 : bind (calc_true_anomaly gb (IMask dm)) (fun _ =>
                bind get (fun s => ret (map2 set5 (mget dm (okep sc)) (mget dm (onu s))))) sc
          = (with_nu (fun _ => put psd vs (onu s)) (setK sc kep' kf'), Ok (map2 set5 (mget dm (okep s)) vs))).
        { unfold bind at 1. rewrite T1, Ek. unfold bind, get, ret.
          change (onu (with_nu (fun _ => put psd vs (onu sc)) (setK sc kep' kf'))) with (put psd vs (onu s)).
          now rewrite Emv. }
        unfold typed in Ety. destruct (otype s); [discriminate| |];
          unfold bind at 1; rewrite R1; auto. }
      split; [reflexivity|]. split; [auto|]. split; [rewrite put_length; now destruct Hs|].
      split; [auto|]. split; [auto|]. split; [discriminate|].
      intros j c k m b C1 C2 C3 C4. destruct (E4 j c k m b C1 C2 C3 C4) as [Q1 [Q2 Q3]].
      cbv zeta. split; [exact Q2|]. split; [exact Q3|]. split.
      + intros Hj. destruct (T3 (rank dm j) j (if W2 j then kconv s (g2 j) c m else k)) as [v [V1 [g V2]]].
        * rewrite Epd.
          assert (Hrk : nth_error (mget dm (seq 0 n)) (rank dm j) = Some j).
          { rewrite mget_rank by auto. rewrite (nth_error_nth' _ 0).
            - rewrite seq_nth; auto. apply nth_error_lt in Hj. lia.
            - rewrite seq_length. apply nth_error_lt in Hj. lia. }
          rewrite <- pick_positions in Hrk by now rewrite seq_length.
          rewrite pick_nth in Hrk.
          2:{ rewrite seq_length. rewrite <- Epd. eapply resolve_bounded; eauto. }
          destruct (nth_error (true_positions 0 dm) (rank dm j)) as [p|] eqn:Ep; [|discriminate].
          assert (p < n).
          { apply nth_error_In in Ep. rewrite <- Epd in Ep. eapply resolve_bounded; eauto. }
          rewrite (nth_error_nth' _ 0), seq_nth in Hrk by (rewrite ?seq_length; auto). now injection Hrk as ->.
        * rewrite Ek. exact Q2.
        * exists g. rewrite V1, V2. reflexivity.
      + rewrite Q1. unfold lazy. cbn. now rewrite !andb_true_r.
    - exists sc, (map s5 (mget dm (okep s))), (onu s), (okep s), (okf s), (fun _ => false), (fun _ => (nan, nan)).
      split.
      { unfold typed in Ety. destruct (otype s); try discriminate.
        unfold bind, ret, get. now rewrite set5_map. }
      split; [unfold sc; now destruct s|]. split; [apply map_length|].
      destruct Hs. split; [auto|]. split; [auto|]. split; [auto|]. split; [auto|].
      intros j c k m b C1 C2 C3 C4. cbv zeta. rewrite orb_false_r, andb_false_r. repeat split; auto.
      intros Hj. exists nan. rewrite nth_error_map, mget_rank, C2 by auto. cbn.
      unfold nu1, typed in *. destruct (otype s); auto; discriminate. }
  destruct An as [st1 [nus [nu' [kep' [kf' [W2 [g2 [R1 [R2 [R3 [R4 [R5 [R6 [R7 R8]]]]]]]]]]]]]].
  set (cols := map2 (fun k mu => k2c_col (edit_col (odeg s) k) mu) (map2 set5 (mget dm (okep s)) nus)
                    (map (mu_of s) (mget dm (om s)))).
  exists (mset dm cols (ocart s)), (mset_s dm true (ocf s)), nu', kep', kf', W2, g2.
  split.
  { unfold calculate_cartesian. unfold bind at 1, get at 1, bind at 1, lift at 1, num.
    rewrite (l_k n s Hs), Hr. fold dm. rewrite Ea. cbn [negb].
    unfold bind at 1, modify at 1. fold sc.
    assert (R9 : forall X (f : list (six F) -> M X),
       bind match otype s with
         | ATrue => ret (mget dm (okep s))
         | _ => bind (calc_true_anomaly gb (IMask dm)) (fun _ =>
                bind get (fun s => ret (map2 set5 (mget dm (okep sc)) (mget dm (onu s)))))
         end f sc = f (map2 set5 (mget dm (okep s)) nus) st1).
    { intros X f. apply bind_get_ret in R1. unfold bind at 1. now rewrite R1. }
    cbv zeta. change (okep sc) with (okep s) in R9. rewrite R9.
    unfold bind at 1, get at 1, bind at 1, lift at 1. rewrite R2.
    cbn [with_cf with_nu setK with_kf with_kep om odeg].
    change (mu_of _) with (mu_of s) at 1.
    rewrite k2c_mat by (rewrite map2_length, R3; lia). fold cols. reflexivity. }
  split; [now rewrite mset_length; destruct Hs|]. split; [now rewrite mset_s_length; destruct Hs|].
  split; [auto|]. split; [auto|]. split; [auto|]. split; [auto|].
  intros j c k m b cb C1 C2 C3 C4 C5. cbv zeta.
  destruct (R8 j c k m b C1 C2 C3 C4) as [Q1 [Q2 [Q3 Q4]]].
  split. { rewrite mset_s_nth, (Hdm j k C2), C5. destruct (mem j ps && negb (nan6 k)); [now rewrite orb_true_r|now rewrite orb_false_r]. }
  split; [exact Q1|]. split; [exact Q2|]. split.
  { destruct (mem j ps && negb (nan6 k)) eqn:W.
    - destruct Q3 as [g Q3]; [now rewrite (Hdm j k C2), W|]. exists g.
      rewrite mset_nth.
      + rewrite (Hdm j k C2), W, C1. unfold cols.
        rewrite !nth_error_map2, Q3, nth_error_map, !mget_rank, C2, C3 by now rewrite (Hdm j k C2), W.
        reflexivity.
      + unfold cols. rewrite !map2_length, R3, <- Lmk.
        rewrite (mget_length dm (ocart s) (okep s)) by (destruct Hs; lia). lia.
    - exists nan. rewrite mset_nth.
      + now rewrite (Hdm j k C2), W, C1.
      + unfold cols. rewrite !map2_length, R3, <- Lmk.
        rewrite (mget_length dm (ocart s) (okep s)) by (destruct Hs; lia). lia. }
  rewrite Q4. split.
  - intros E. apply andb_true_iff in E. destruct E as [E E4]. apply andb_true_iff in E. destruct E as [E E3].
    apply andb_true_iff in E. destruct E as [E1 E2]. apply negb_true_iff in E3, E4. auto.
  - intros _ -> -> -> ->. reflexivity.
Qed.
End Base.
