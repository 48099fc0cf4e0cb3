(** * C95: Orbit objects under a change of units by powers of two. *)
From Coq Require Import Ascii String List Bool ZArith QArith Qreals Reals Lra Lia Arith FunctionalExtensionality.
From Flocq Require Import Core.Core.
From Verif Require Import NP NPReal NPFloat FloatBase KeplerModel ConvModel UnitModel OrbitModel OrbitLists PropsFloatScale.
Import ListNotations.
Local Open Scope nat_scope.
Notation V := NPReal.num.

Definition rmap {A B} (f : A -> B) (r : res A) : res B := match r with Ok x => Ok (f x) | Raise e => Raise e end.
Definition on_arg (f : V -> V) (v : arg V) : arg V := match v with Sc x => Sc (f x) | Arr s m d => Arr s m (map f d) end.

Lemma mget_maps {A B} (h : A -> B) m l : mget m (map h l) = map h (mget m l).
Proof. revert l. induction m as [|b m IH]; intros [|x l]; cbn; auto. rewrite IH. now destruct b. Qed.
Lemma mset_maps {A B} (h : A -> B) m vs l : mset m (map h vs) (map h l) = map h (mset m vs l).
Proof. revert vs l. induction m as [|b m IH]; intros vs [|x l]; cbn; auto. destruct b; [destruct vs as [|v vs]|]; cbn; rewrite <- IH; auto. Qed.
Lemma upd_maps {A B} (h : A -> B) p v l : upd_nth p (h v) (map h l) = map h (upd_nth p v l).
Proof. revert p. induction l as [|x l IH]; intros [|p]; cbn; auto. now rewrite IH. Qed.
Lemma put_maps {A B} (h : A -> B) ps vs l : put ps (map h vs) (map h l) = map h (put ps vs l).
Proof. revert vs l. induction ps as [|p ps IH]; intros [|v vs] l; cbn; auto. now rewrite upd_maps, IH. Qed.
Lemma delete_maps {A B} (h : A -> B) ps l : delete_at ps (map h l) = map h (delete_at ps l).
Proof. unfold delete_at. generalize 0. induction l as [|x l IH]; intros k; cbn; auto. rewrite IH. now destruct (existsb (Nat.eqb k) ps). Qed.
Lemma repeat_maps {A B} (h : A -> B) x n : repeat (h x) n = map h (repeat x n).
Proof. induction n; cbn; congruence. Qed.
Lemma map2_maps {A B C A' B' C'} (f : A -> B -> C) (f' : A' -> B' -> C') (p : A -> A') (q : B -> B') (r : C -> C') a b :
  (forall x y, f' (p x) (q y) = r (f x y)) -> map2 f' (map p a) (map q b) = map r (map2 f a b).
Proof. apply map2_scale. Qed.
Lemma map2_mapl {A B C A' C'} (f : A -> B -> C) (f' : A' -> B -> C') (p : A -> A') (r : C -> C') a b :
  (forall x y, f' (p x) y = r (f x y)) -> map2 f' (map p a) b = map r (map2 f a b).
Proof. intros. rewrite <- (map_id b) at 1. now apply map2_scale. Qed.
Lemma map2_mapr {A B C B' C'} (f : A -> B -> C) (f' : A -> B' -> C') (q : B -> B') (r : C -> C') a b :
  (forall x y, f' x (q y) = r (f x y)) -> map2 f' a (map q b) = map r (map2 f a b).
Proof. intros. rewrite <- (map_id a) at 1. now apply map2_scale. Qed.
Lemma map3_maps {A B C D A' B' C' D'} (f : A -> B -> C -> D) (f' : A' -> B' -> C' -> D') p q r t a b c :
  (forall x y z, f' (p x) (q y) (r z) = t (f x y z)) -> map3 f' (map p a) (map q b) (map r c) = map t (map3 f a b c).
Proof. intros Q. revert b c. induction a as [|x a IH]; intros [|y b] [|z c]; cbn; auto. now rewrite Q, IH. Qed.
Lemma scl0 x : scl 0 x = x. Proof. symmetry. exact (sc_refl x). Qed.
Lemma scl_nan k : scl k NaN = NaN. Proof. reflexivity. Qed.
Lemma map_scl0 l : map (scl 0) l = l. Proof. rewrite <- (map_id l) at 2. apply map_ext, scl0. Qed.
Lemma on_arg0 v : on_arg (scl 0) v = v. Proof. destruct v; cbn; now rewrite ?scl0, ?map_scl0. Qed.
(** a column whose row r is multiplied by 2^(d r) *)
Definition s6 (d : nat -> Z) (c : six V) : six V :=
  mk6 (scl (d 0) (s0 c)) (scl (d 1) (s1 c)) (scl (d 2) (s2 c)) (scl (d 3) (s3 c)) (scl (d 4) (s4 c)) (scl (d 5) (s5 c)).

(** a (6,) or (6,n) array whose row r is multiplied by 2^(d r) *)
Definition rows (d : nat -> Z) (n : nat) (x : list V) : list V := map2 (fun p y => scl (d (p / n)) y) (seq 0 (length x)) x.
Definition on6 (d : nat -> Z) (v : arg V) : arg V :=
  match v with Arr [k] m x => Arr [k] m (rows d 1 x) | Arr [k; n] m x => Arr [k; n] m (rows d n x) | _ => v end.
Lemma rows_from d n x a k : nth k (map2 (fun p y => scl (d (p / n)) y) (seq a (length x)) x) NaN = scl (d ((a + k) / n)) (nth k x NaN).
Proof.
  revert a k. induction x as [|y x IH]; intros a [|k]; cbn [length seq map2 nth]; auto; [now rewrite Nat.add_0_r|]. rewrite IH. now rewrite Nat.add_succ_comm.
Qed.
Lemma rows_nth d n x k : nth k (rows d n x) NaN = scl (d (k / n)) (nth k x NaN). Proof. apply (rows_from d n x 0). Qed.
(** arrays with six rows *)
Definition mat6 (v : arg V) : Prop := exists n m x, v = Arr [6; n] m x.
Definition vec6 (v : arg V) : Prop := exists m x, v = Arr [6] m x.

Section Units.
Context (rd : R -> R) (L : libm) (D : digits rd) (i j l : Z) (gb : nat -> nat -> V).
Notation N := (NP_rd rd L).
Local Hint Extern 0 (NP NPReal.num) => exact (NP_rd rd L) : typeclass_instances.
Notation orb := (OrbitModel.orb V).
(** the power of two of the rows of a Cartesian state and of the Kepler elements *)
Definition dc (r : nat) : Z := if r <? 3 then i else j.
Definition dk (r : nat) : Z := if r =? 0 then i else 0%Z.
Lemma scx_s6 c : scx i j c = s6 dc c. Proof. reflexivity. Qed.
Lemma sck_s6 c : sck i c = s6 dk c. Proof. unfold sck, s6. cbn [dk Nat.eqb]. now rewrite !scl0. Qed.

(** the same object in the new units: lengths times 2^i, speeds times 2^j, masses times 2^l *)
Definition so (s : orb) : orb :=
  mkorb (scl l (oM0 s)) (scl (i + 2 * j - l) (oG s)) (oauto s) (odirect s) (okro s) (ocro s) (odeg s) (otype s) (oopts s)
        (map (scl l) (om s)) (map (scx i j) (ocart s)) (map (sck i) (okep s)) (onu s) (oE s) (oMa s) (ocf s) (okf s) (oit s).
(** the method [m'] on the object in the new units does what [m] does, [f]: the returned value in the new units *)
Definition msim {A} (f : A -> A) (m' m : M A) : Prop := forall s, m' (so s) = (so (fst (m s)), rmap f (snd (m s))).
Local Notation self := (fun x => x).

Lemma ms_ret {A} (f : A -> A) x' x : x' = f x -> msim f (ret x') (ret x). Proof using Type. intros -> s. reflexivity. Qed.
Lemma ms_raise {A} (f : A -> A) e : msim f (raise e) (raise e). Proof using Type. intros s. reflexivity. Qed.
Lemma ms_bind {A B} (f : A -> A) (g : B -> B) m' m k' k : msim f m' m -> (forall x, msim g (k' (f x)) (k x)) -> msim g (bind m' k') (bind m k).
Proof using Type. intros H1 H2 s. unfold bind. rewrite H1. destruct (m s) as [s1 [x|e]]; cbn [fst snd rmap]; [apply H2|reflexivity]. Qed.
Lemma ms_seq {A B} (g : B -> B) (m' m : M A) (k' k : M B) : msim self m' m -> msim g k' k -> msim g (bind m' (fun _ => k')) (bind m (fun _ => k)).
Proof using Type. intros H1 H2. eapply ms_bind; eauto. Qed.
Lemma ms_bget {B} (g : B -> B) k' k : (forall s, msim g (k' (so s)) (k s)) -> msim g (bind get k') (bind get k).
Proof using Type. intros K s. exact (K s s). Qed.
Lemma ms_lift {A} (f : A -> A) r' r : r' = rmap f r -> msim f (lift r') (lift r). Proof using Type. intros -> s. reflexivity. Qed.
Lemma ms_blift {A B} (f : A -> A) (g : B -> B) r' r k' k : r' = rmap f r -> (forall x, msim g (k' (f x)) (k x)) -> msim g (bind (lift r') k') (bind (lift r) k).
Proof using Type. intros E K. eapply ms_bind; [apply ms_lift, E|exact K]. Qed.
Lemma rmap_self {A} (r : res A) : r = rmap self r. Proof using Type. now destruct r. Qed.
Lemma ms_blid {A B} (g : B -> B) (r' r : res A) k' k : r' = r -> (forall x, msim g (k' x) (k x)) -> msim g (bind (lift r') k') (bind (lift r) k).
Proof using Type. intros -> K. eapply (ms_blift self); [apply rmap_self|exact K]. Qed.
Lemma ms_modify h' h : (forall s, h' (so s) = so (h s)) -> msim self (modify h') (modify h). Proof using Type. intros E s. unfold modify. now rewrite E. Qed.
Lemma rmap_id {A} (r : res A) : rmap (fun x => x) r = r. Proof using Type. now destruct r. Qed.
Lemma ms_void {A} (f : A -> A) m' m : msim f m' m -> msim self (void m') (void m).
Proof using Type. intros Q. eapply ms_bind; [exact Q|]. intros x. now apply ms_ret. Qed.

Ltac sx := cbn [so oM0 oG oauto odirect okro ocro odeg otype oopts om ocart okep onu oE oMa ocf okf oit].
Ltac md := apply ms_modify; let s := fresh "s" in intros s;
  unfold with_cart, with_kep, with_m, with_nu, with_E, with_Ma, with_cf, with_kf, with_type, with_it, with_flags, so; sx; try reflexivity.

Lemma num_so s : OrbitModel.num (so s) = OrbitModel.num s. Proof using Type. unfold OrbitModel.num. sx. apply map_length. Qed.
Lemma mu_so s m : mu_of (so s) (scl l m) = scl (i + 2 * j) (@mu_of V N s m).
Proof using D.
  unfold mu_of. sx. change (sc (i + 2 * j) (@mul _ N (scl (i + 2 * j - l) (oG s)) (@add _ N (scl l (oM0 s)) (scl l m))) (@mul _ N (oG s) (@add _ N (oM0 s) m))).
  eapply (sc_mul rd L D); [reflexivity| |]; [apply (sc_add rd L D); reflexivity|lia].
Qed.
Lemma mus_so s ms : map (mu_of (so s)) (map (scl l) ms) = map (scl (i + 2 * j)) (map (@mu_of V N s) ms).
Proof using D. rewrite !map_map. apply map_ext. intros. apply mu_so. Qed.
Lemma isnan_scl k x : @isnan V N (scl k x) = @isnan V N x.
Proof using Type. unfold isnan. cbn [eqb NP_rd]. destruct x; try reflexivity. cbn [scl num_eqb]. unfold Reqb. do 2 (destruct (Req_EM_T _ _); [|congruence]). reflexivity. Qed.
Lemma nan6_scx c : @nan6 V N (scx i j c) = @nan6 V N c. Proof using Type. unfold nan6, scx. cbn [s0 s1 s2 s3 s4 s5]. now rewrite !isnan_scl. Qed.
Lemma nan6_sck c : @nan6 V N (sck i c) = @nan6 V N c. Proof using Type. unfold nan6, sck. cbn [s0 s1 s2 s3 s4 s5]. now rewrite !isnan_scl. Qed.
Lemma mask_so f cols ps : (forall c, @nan6 V N (f c) = @nan6 V N c) -> do_mask (map f cols) ps = @do_mask V N cols ps.
Proof using Type. intros E. unfold do_mask. rewrite map_length, pick_map, map_map. f_equal. apply map_ext. intros c. now rewrite E. Qed.
Lemma s5_sck kep : map s5 (map (sck i) kep) = map s5 kep. Proof using Type. rewrite map_map. reflexivity. Qed.
Lemma s1_sck kep : map s1 (map (sck i) kep) = map s1 kep. Proof using Type. rewrite map_map. reflexivity. Qed.
Lemma set5_sck kep x : map2 set5 (map (sck i) kep) x = map (sck i) (map2 set5 kep x). Proof using Type. now apply map2_mapl. Qed.
Lemma from_c2k g dm s :
  from_mat (snd (cart_to_kep g (KMat (mget dm (map (scx i j) (ocart s)))) (MuV (map (mu_of (so s)) (mget dm (map (scl l) (om s))))) (odeg s)))
  = rmap (map (sck i)) (from_mat (snd (@cart_to_kep V N g (KMat (mget dm (ocart s))) (MuV (map (mu_of s) (mget dm (om s)))) (odeg s)))).
Proof using D.
  rewrite !mget_maps, mus_so. pose proof (C94_cart_to_kep rd L i j (KMat (mget dm (ocart s))) (MuV (map (mu_of s) (mget dm (om s)))) (odeg s) g g D) as Q.
  cbn [on_in on_mu] in Q. rewrite Q. clear Q. destruct (snd (cart_to_kep _ _ _ _)) as [[]|]; reflexivity.
Qed.
Lemma from_k2c g kep dm s :
  from_mat (snd (kep_to_cart g (KMat (map (sck i) kep)) (MuV (map (mu_of (so s)) (mget dm (map (scl l) (om s))))) (odeg s)))
  = rmap (map (scx i j)) (from_mat (snd (@kep_to_cart V N g (KMat kep) (MuV (map (mu_of s) (mget dm (om s)))) (odeg s)))).
Proof using D.
  rewrite mget_maps, mus_so. pose proof (C94_kep_to_cart rd L i j (KMat kep) (MuV (map (mu_of s) (mget dm (om s)))) (odeg s) g g D) as Q.
  cbn [on_in on_mu] in Q. rewrite Q. clear Q. destruct (snd (kep_to_cart _ _ _ _)) as [[]|]; reflexivity.
Qed.

(** ** The methods *)
Lemma ms_calc_kep f inds : msim self (calculate_kepler_f gb f inds) (@calculate_kepler_f V N gb f inds).
Proof using D.
  revert inds. induction f as [|f IH]; intros inds; [apply ms_raise|]. cbn [calculate_kepler_f].
  apply ms_bget. intros s. sx. rewrite num_so. apply ms_blid; [reflexivity|]. intros ps. cbv zeta. rewrite (mask_so _ _ _ nan6_scx).
  set (dm := do_mask (ocart s) ps). clearbody dm. destruct (negb (any dm)); [now apply ms_ret|].
  apply ms_seq; [md|]. apply ms_bget. clear s. intros s. sx. eapply ms_blift; [apply from_c2k|]. intros k.
  apply ms_seq; [md; now rewrite mset_maps|].
  assert (CV : forall fn : arg V -> arg V -> bool -> res (arg V), msim self
    (bind get (fun st1 => let nu := mget dm (map s5 (okep st1)) in
     bind (if oauto st1 && negb (odirect st1) then calculate_kepler_f gb f (IMask (map negb (okf st1))) else ret tt) (fun _ =>
     bind get (fun st2 => let e := mget dm (map s1 (okep st2)) in
     bind (lift (fn (fresh [length nu] nu) (fresh [length e] e) (odeg st2))) (fun x =>
     modify (with_kep (fun kep => map2 set5 kep (mset dm (adata x) (map s5 kep)))))))))
    (bind get (fun st1 => let nu := mget dm (map s5 (okep st1)) in
     bind (if oauto st1 && negb (odirect st1) then calculate_kepler_f gb f (IMask (map negb (okf st1))) else ret tt) (fun _ =>
     bind get (fun st2 => let e := mget dm (map s1 (okep st2)) in
     bind (lift (fn (fresh [length nu] nu) (fresh [length e] e) (odeg st2))) (fun x =>
     modify (with_kep (fun kep => map2 set5 kep (mset dm (adata x) (map s5 kep)))))))))).
  { intros fn. apply ms_bget. clear s. intros s. sx. cbv zeta. rewrite s5_sck. apply ms_seq.
    - destruct (oauto s && negb (odirect s)); [apply IH|now apply ms_ret].
    - apply ms_bget. intros t. sx. rewrite s1_sck. apply ms_blid; [reflexivity|]. intros x. md. now rewrite s5_sck, set5_sck. }
  cbv zeta in CV. destruct (otype s); [now apply ms_ret|apply CV|apply CV].
Qed.

Lemma ms_kep_check : msim self (kep_check gb) (@kep_check V N gb).
Proof using D. unfold kep_check. apply ms_bget. intros s. sx. destruct (oauto s && negb (odirect s)); [apply ms_calc_kep|now apply ms_ret]. Qed.
Lemma row_sck k kep : map (row_get k) (map (sck i) kep) = map (scl (dk k)) (map (row_get k) kep).
Proof using Type. rewrite !map_map. apply map_ext. intros c. rewrite sck_s6. destruct k as [|[|[|[|[|[|k]]]]]]; reflexivity. Qed.
Lemma row_scx k cart : map (row_get k) (map (scx i j) cart) = map (scl (dc k)) (map (row_get k) cart).
Proof using Type. rewrite !map_map. apply map_ext. intros c. destruct k as [|[|[|[|[|[|k]]]]]]; reflexivity. Qed.
Lemma ms_kep_row k : msim (map (scl (dk k))) (get_kep_row gb k) (@get_kep_row V N gb k).
Proof using D. unfold get_kep_row. apply ms_seq; [apply ms_kep_check|]. apply ms_bget. intros s. sx. apply ms_ret, row_sck. Qed.
Lemma ms_e : msim self (get_e gb) (@get_e V N gb).
Proof using D. intros s. unfold get_e. rewrite ms_kep_row. f_equal. destruct (snd _); cbn; auto. now rewrite map_scl0. Qed.
Lemma ms_anom : msim self (get_anom gb) (@get_anom V N gb).
Proof using D. intros s. unfold get_anom. rewrite ms_kep_row. f_equal. destruct (snd _); cbn; auto. now rewrite map_scl0. Qed.

(** follows the common structure of the two bodies *)
Ltac go := intros; cbv beta zeta; sx;
  first
  [ solve [auto 2 with units nocore]
  | lazymatch goal with
    | |- msim _ (bind get _) _ => apply ms_bget; intro; go
    | |- msim _ (bind (lift _) _) _ => apply ms_blid; [reflexivity|go]
    | |- msim _ (bind _ (fun _ => _)) _ => first [apply ms_seq; [go|go]|apply (ms_bind self); [go|go]]
    | |- msim _ (if ?c then _ else _) _ => destruct c; go
    | |- msim _ (match ?c with _ => _ end) _ => destruct c; go
    | |- msim self (lift _) _ => apply ms_lift, rmap_self
    | |- msim _ (ret _) _ => apply ms_ret; try reflexivity
    | |- msim _ (raise _) _ => apply ms_raise
    | |- msim _ (modify _) _ => md
    | _ => idtac
    end ].
Create HintDb units.
Hint Resolve ms_kep_check ms_e ms_anom : units.
Lemma ms_calc_true inds : msim self (calc_true_anomaly gb inds) (@calc_true_anomaly V N gb inds).
Proof using D. unfold calc_true_anomaly. go. Qed.
Lemma ms_calc_mean inds : msim self (calc_mean_anomaly gb inds) (@calc_mean_anomaly V N gb inds).
Proof using D. unfold calc_mean_anomaly. go. Qed.
Lemma ms_calc_ecc inds : msim self (calc_eccentric_anomaly gb inds) (@calc_eccentric_anomaly V N gb inds).
Proof using D. unfold calc_eccentric_anomaly. go. Qed.

Hint Resolve ms_calc_true ms_calc_mean ms_calc_ecc : units.
Lemma ms_calc_cart inds : msim self (calculate_cartesian gb inds) (@calculate_cartesian V N gb inds).
Proof using D.
  unfold calculate_cartesian. apply ms_bget. intros s. sx. rewrite num_so. apply ms_blid; [reflexivity|]. intros ps. cbv zeta. rewrite (mask_so _ _ _ nan6_sck).
  set (dm := do_mask (okep s) ps). clearbody dm. destruct (negb (any dm)); [now apply ms_ret|]. apply ms_seq; [md|].
  apply (ms_bind (map (sck i))).
  - rewrite mget_maps. destruct (otype s); [now apply ms_ret| |]; (apply ms_seq; [auto with units|]; apply ms_bget; intros t; sx; apply ms_ret, set5_sck).
  - intros kep. apply ms_bget. intros t. sx. eapply ms_blift; [apply from_k2c|]. intros c. md. now rewrite mset_maps.
Qed.
Lemma ms_cart_check : msim self (cart_check gb) (@cart_check V N gb).
Proof using D. unfold cart_check. apply ms_bget. intros s. sx. destruct (oauto s && negb (odirect s)); [apply ms_calc_cart|now apply ms_ret]. Qed.
Lemma ms_calc_kep3 inds : msim self (calculate_kepler gb inds) (@calculate_kepler V N gb inds). Proof using D. apply ms_calc_kep. Qed.
Hint Resolve ms_calc_cart ms_calc_kep3 ms_cart_check : units.

(** getters *)
Lemma ms_cartesian : msim (map (scx i j)) (get_cartesian gb) (@get_cartesian V N gb). Proof using D. unfold get_cartesian. go. Qed.
Lemma ms_kepler : msim (map (sck i)) (get_kepler gb) (@get_kepler V N gb). Proof using D. unfold get_kepler. go. Qed.
Lemma ms_cart_row k : msim (map (scl (dc k))) (get_cart_row gb k) (@get_cart_row V N gb k).
Proof using D. unfold get_cart_row. go. apply row_scx. Qed.
Definition sv (q : Z) (u : v3 V) : v3 V := (scl q (c0 u), scl q (c1 u), scl q (c2 u)).
Lemma ms_r : msim (map (sv i)) (get_r gb) (@get_r V N gb). Proof using D. unfold get_r. go. rewrite !map_map. reflexivity. Qed.
Lemma ms_v : msim (map (sv j)) (get_v gb) (@get_v V N gb). Proof using D. unfold get_v. go. rewrite !map_map. reflexivity. Qed.
Lemma ms_period : msim (map (scl (i - j))) (get_period gb) (@get_period V N gb).
Proof using D.
  unfold get_period. apply ms_seq; [auto with units|]. eapply ms_bind; [apply ms_kep_row|]. intros a. apply ms_bget. intros s. sx. apply ms_ret.
  rewrite mus_so. apply map2_maps. intros x y. exact (proj1 (C94_period_speed rd L i j x x y D)).
Qed.
Lemma ms_motion : msim (map (scl (j - i))) (get_mean_motion gb) (@get_mean_motion V N gb).
Proof using D.
  unfold get_mean_motion. apply ms_bget. intros s. sx. eapply ms_bind; [apply ms_period|]. intros p. apply ms_ret.
  rewrite !map_map. apply map_ext. intros x. apply (sc_div rd L D 0 (i - j)); [apply sc_refl|reflexivity|lia].
Qed.
Lemma ms_ecc : msim self (get_eccentric_anomaly gb) (@get_eccentric_anomaly V N gb). Proof using D. unfold get_eccentric_anomaly. go. Qed.
Lemma ms_true : msim self (get_true_anomaly gb) (@get_true_anomaly V N gb). Proof using D. unfold get_true_anomaly. go. Qed.
Lemma ms_mean : msim self (get_mean_anomaly gb) (@get_mean_anomaly V N gb). Proof using D. unfold get_mean_anomaly. go. Qed.
Hint Resolve ms_ecc ms_true ms_mean : units.
Lemma ms_apo : msim (map (scl i)) (get_apoapsis gb) (@get_apoapsis V N gb).
Proof using D.
  unfold get_apoapsis. apply (ms_bind self); [auto with units|]. intros e. eapply ms_bind; [apply ms_kep_row|]. intros a. apply ms_ret.
  apply map2_mapr. intros x y. apply (sc_mul rd L D 0 i); [apply sc_refl|reflexivity|lia].
Qed.
Lemma ms_peri : msim (map (scl i)) (get_periapsis gb) (@get_periapsis V N gb).
Proof using D.
  unfold get_periapsis. apply (ms_bind self); [auto with units|]. intros e. eapply ms_bind; [apply ms_kep_row|]. intros a. apply ms_ret.
  apply map2_mapr. intros x y. apply (sc_mul rd L D 0 i); [apply sc_refl|reflexivity|lia].
Qed.
Lemma ms_longitude : msim self (get_mean_longitude gb) (@get_mean_longitude V N gb).
Proof using D.
  unfold get_mean_longitude. apply (ms_bind self); [auto with units|]. intros m. eapply ms_bind; [apply ms_kep_row|]. intros o. eapply ms_bind; [apply ms_kep_row|]. intros q.
  apply ms_ret. cbn [dk Nat.eqb]. now rewrite !map_scl0.
Qed.
Lemma zip6_fst (a b c d e f : list V) : zip6 (map (scl i) a) b c d e f = map (sck i) (zip6 a b c d e f).
Proof using Type. unfold zip6. revert b c d e f. induction a as [|x a IH]; intros [|? b] [|? c] [|? d] [|? e] [|? f]; cbn; auto. now rewrite <- IH. Qed.
Lemma equi_sck deg kep : kep_to_equi_cols deg (map (sck i) kep) = map (sck i) (@kep_to_equi_cols V N deg kep).
Proof using Type. unfold kep_to_equi_cols. rewrite !map_map. cbn [sck s0 s1 s2 s3 s4 s5]. rewrite <- zip6_fst, map_map. reflexivity. Qed.
Lemma ms_equi : msim (on_in (sck i)) (get_equinoctial gb) (@get_equinoctial V N gb).
Proof using D.
  unfold get_equinoctial. eapply ms_bind; [apply ms_kepler|]. intros k. apply (ms_bind self); [auto with units|]. intros m. apply ms_bget. intros s. sx. cbv zeta.
  rewrite set5_sck, equi_sck. destruct (kep_to_equi_cols (odeg s) (map2 set5 k m)) as [|x [|y t]]; now apply ms_ret.
Qed.
Lemma norm_sv q u : vnorm (sv q u) = scl q (@vnorm V N u). Proof using D. apply (v_norm rd L D). split; [|split]; reflexivity. Qed.
Lemma ms_velocity : msim (map (scl j)) (get_velocity gb) (@get_velocity V N gb).
Proof using D. unfold get_velocity. apply ms_seq; [auto with units|]. eapply ms_bind; [apply ms_v|]. intros v. apply ms_ret. rewrite !map_map. apply map_ext, norm_sv. Qed.
Lemma bcast1_on f n v : f NaN = NaN -> bcast1 n (on_arg f v) = rmap (map f) (@bcast1 V N n v).
Proof using Type.
  intros E. destruct v as [x|s m d]; cbn [on_arg bcast1]; [cbn; now rewrite repeat_maps|].
  assert (Q : nth 0 (map f d) NaN = f (nth 0 d NaN)) by (rewrite <- E at 1; apply map_nth).
  destruct (strip_ones s) as [|k [|k' t]]; cbn; auto; [|now destruct (k =? n)]. f_equal. change (@nan V N) with NaN. now rewrite <- repeat_maps, Q.
Qed.
Lemma ms_speed : msim (map (scl j)) (get_speed gb) (@get_speed V N gb).
Proof using D.
  unfold get_speed. apply ms_seq; [auto with units|]. apply (ms_bind self); [auto with units|]. intros E. eapply ms_bind; [apply ms_kep_row|]. intros a. apply (ms_bind self); [auto with units|]. intros e.
  apply ms_bget. intros s. sx. rewrite map_length. apply ms_blid; [reflexivity|]. intros E'. cbv zeta. eapply ms_bind; [apply ms_kep_row|]. intros a'. apply ms_bget. intros t. sx. apply ms_ret.
  rewrite mus_so. cbn [dk Nat.eqb].
  assert (Q : map3 (fun E a e => elliptic_radius E a e (odeg s)) E' (map (scl i) a) e = map (scl i) (map3 (fun E a e => @elliptic_radius V N E a e (odeg s)) E' a e)).
  { rewrite <- (map_id E'), <- (map_id e) at 1. apply map3_maps. intros x y z. unfold elliptic_radius. cbv zeta. apply (sc_mul rd L D i 0); [reflexivity|apply sc_refl|lia]. }
  rewrite Q. apply map3_maps. intros x y z. exact (proj2 (C94_period_speed rd L i j y x z D)).
Qed.

(** setters *)
Lemma set_row_scx k cols vs : set_row k (map (scx i j) cols) (map (scl (dc k)) vs) = map (scx i j) (set_row k cols vs).
Proof using Type. unfold set_row. apply map2_maps. intros c x. destruct k as [|[|[|[|[|[|k]]]]]]; reflexivity. Qed.
Lemma set_row_sck k cols vs : set_row k (map (sck i) cols) (map (scl (dk k)) vs) = map (sck i) (set_row k cols vs).
Proof using Type. unfold set_row. apply map2_maps. intros c x. destruct k as [|[|[|[|[|[|k]]]]]]; unfold sck, dk; cbn [row_set s0 s1 s2 s3 s4 s5 Nat.eqb]; now rewrite ?scl0. Qed.
Lemma ms_set_cart_row k v : msim self (set_cart_row gb k (on_arg (scl (dc k)) v)) (@set_cart_row V N gb k v).
Proof using D.
  unfold set_cart_row. apply ms_bget. intros s. sx. destruct (ocro s); [apply ms_raise|]. rewrite map_length. eapply ms_blift; [now apply bcast1_on|]. intros vs. apply ms_seq; [|go].
  md. now rewrite set_row_scx.
Qed.
Lemma ms_set_kep_row k v : msim self (set_kep_row gb k (on_arg (scl (dk k)) v)) (@set_kep_row V N gb k v).
Proof using D.
  unfold set_kep_row. apply ms_bget. intros s. sx. destruct (okro s); [apply ms_raise|]. rewrite map_length. eapply ms_blift; [now apply bcast1_on|]. intros vs. apply ms_seq; [|go].
  md. now rewrite set_row_sck.
Qed.
Lemma ms_set_anom v : msim self (set_anom gb v) (@set_anom V N gb v).
Proof using D. unfold set_anom. rewrite <- (on_arg0 v) at 1. exact (ms_set_kep_row 5 v). Qed.
Lemma ms_after_cart : msim self (after_cart gb) (@after_cart V N gb). Proof using D. unfold after_cart. go. Qed.
Lemma ms_after_kep : msim self (after_kep gb) (@after_kep V N gb). Proof using D. unfold after_kep. go. Qed.
Lemma ms_after_anom : msim self (after_anom gb) (@after_anom V N gb). Proof using D. unfold after_anom. go. Qed.
Hint Resolve ms_set_anom ms_after_cart ms_after_kep ms_after_anom : units.
Lemma ms_set_ecc v : msim self (set_eccentric_anomaly gb v) (@set_eccentric_anomaly V N gb v). Proof using D. unfold set_eccentric_anomaly. go. Qed.
Lemma ms_set_true v : msim self (set_true_anomaly gb v) (@set_true_anomaly V N gb v). Proof using D. unfold set_true_anomaly. go. Qed.
Lemma ms_set_mean v : msim self (set_mean_anomaly gb v) (@set_mean_anomaly V N gb v). Proof using D. unfold set_mean_anomaly. go. Qed.
Lemma ms_set_motion v' v : msim self (set_mean_motion gb v') (@set_mean_motion V N gb v). Proof using D. unfold set_mean_motion, set_period. go. Qed.
Hint Resolve ms_set_ecc ms_set_true ms_set_mean : units.

Definition onf (f : V -> V) (h : nat -> V) : nat -> V := fun r => f (h r).
Lemma nth_nan f (d : list V) k : f NaN = NaN -> nth k (map f d) NaN = f (nth k d NaN).
Proof using Type. intros E. rewrite <- E at 1. apply map_nth. Qed.
Lemma bcast2_on f r n v : f NaN = NaN -> bcast2 r n (on_arg f v) = rmap (map (onf f)) (@bcast2 V N r n v).
Proof using Type.
  intros E. destruct v as [x|s m d]; cbn [on_arg bcast2]; [cbn; now rewrite <- repeat_maps|]. change (@nan V N) with NaN.
  destruct (strip_ones s) as [|k [|k' [|k'' t]]]; cbn [rmap]; auto.
  - rewrite <- repeat_maps. unfold onf. now rewrite nth_nan.
  - destruct (k =? n); cbn [rmap]; auto. rewrite !map_map. reflexivity.
  - destruct (negb (k =? r)); auto. destruct (k' =? n); cbn [rmap].
    + f_equal. rewrite map_map. apply map_ext. intros p. apply functional_extensionality. intros q. unfold onf. now apply nth_nan.
    + destruct (k' =? 1); cbn [rmap]; auto. rewrite <- repeat_maps. do 2 f_equal. apply functional_extensionality. intros q. unfold onf. now apply nth_nan.
Qed.
Lemma ms_set_r v : msim self (set_r gb (on_arg (scl i) v)) (@set_r V N gb v).
Proof using D.
  unfold set_r. apply ms_bget. intros s. sx. destruct (ocro s); [apply ms_raise|]. rewrite map_length. eapply ms_blift; [now apply bcast2_on|]. intros vs.
  apply ms_seq; [|auto with units]. md. f_equal. now apply map2_maps.
Qed.
Lemma ms_set_v v : msim self (set_v gb (on_arg (scl j) v)) (@set_v V N gb v).
Proof using D.
  unfold set_v. apply ms_bget. intros s. sx. destruct (ocro s); [apply ms_raise|]. rewrite map_length. eapply ms_blift; [now apply bcast2_on|]. intros vs.
  apply ms_seq; [|auto with units]. md. f_equal. now apply map2_maps.
Qed.
Lemma ms_set_velocity v : msim self (set_velocity gb (on_arg (scl j) v)) (@set_velocity V N gb v).
Proof using D.
  unfold set_velocity. apply ms_bget. intros s. sx. destruct (ocro s); [apply ms_raise|].
  eapply ms_bind; [apply ms_v|]. intros old. eapply ms_bind; [apply ms_v|]. intros cur. rewrite map_length. eapply ms_blift; [now apply bcast1_on|]. intros sp. cbv zeta.
  assert (E1 : map2 (fun x n => x / n)%np (map (scl j) sp) (map vnorm (map (sv j) cur)) = map2 (fun x n => @div V N x n) sp (map (@vnorm V N) cur)).
  { replace (map vnorm (map (sv j) cur)) with (map (scl j) (map (@vnorm V N) cur)) by (rewrite !map_map; apply map_ext; intros; symmetry; apply norm_sv).
    rewrite <- (map_id (map2 _ sp _)). apply map2_maps. intros x y. apply sc_eq. apply (sc_div rd L D j j); [reflexivity|reflexivity|lia]. }
  rewrite E1. set (q := map2 _ sp _).
  assert (E2 : map2 (fun (u : v3 V) q => (c0 u * q, c1 u * q, c2 u * q)%np) (map (sv j) old) q = map (sv j) (map2 (fun (u : v3 V) q => (@mul V N (c0 u) q, @mul V N (c1 u) q, @mul V N (c2 u) q)) old q)).
  { apply map2_mapl. intros u x. unfold sv. cbn [c0 c1 c2 fst snd]. f_equal; [f_equal|]; (apply (sc_mul rd L D j 0); [reflexivity|apply sc_refl|lia]). }
  rewrite E2. set (new := map2 _ old q). rewrite map_length. apply ms_seq; [|go].
  match goal with |- msim _ (set_v _ ?a) (set_v _ ?b) => replace a with (on_arg (scl j) b); [apply ms_set_v|] end.
  unfold fresh. cbn [on_arg]. rewrite !map_app, !map_map, !app_length, !map_length. reflexivity.
Qed.
Lemma ms_set_type t : msim self (set_type gb t) (@set_type V N gb t).
Proof using D. unfold set_type. go. Qed.
Lemma equi_kep_sck g deg l0 : equi_to_kep_cols g deg (map (sck i) l0) = map (sck i) (@equi_to_kep_cols V N g deg l0).
Proof using Type.
  unfold equi_to_kep_cols. cbv zeta. rewrite map_length, !map_map. cbn [sck s0 s1 s2 s3 s4 s5]. rewrite <- zip6_fst, map_map. reflexivity.
Qed.
Lemma ms_set_equi v : msim self (set_equinoctial gb (on_in (sck i) v)) (@set_equinoctial V N gb v).
Proof using D.
  unfold set_equinoctial. apply ms_bget. intros s. sx. apply (ms_blift (on_in (sck i))).
  - unfold equi_to_kep. destruct v as [| | |c|m]; try reflexivity; cbn [on_in on_cols rbind].
    + change [sck i c] with (map (sck i) [c]). rewrite equi_kep_sck. destruct (equi_to_kep_cols gb (odeg s) [c]) as [|x [|y t]]; reflexivity.
    + rewrite equi_kep_sck. reflexivity.
  - intros [| | |k|m]; cbn [on_in]; try apply ms_raise.
    + apply ms_seq; [|exact (ms_set_mean _)]. md. f_equal. rewrite !map_map. reflexivity.
    + rewrite !map_length. replace (map s5 (map (sck i) m)) with (map s5 m) by (now rewrite map_map). apply ms_seq; [|auto with units].
      assert (E : forall c0 : list (six V), map2 set_head (map (sck i) c0) (map (sck i) m) = map (sck i) (map2 set_head c0 m)) by (intros; now apply map2_maps).
      destruct m as [|a [|b t]]; cbn [map].
      * destruct (_ =? _); [|apply ms_raise]. md. f_equal. apply (E (okep s0)).
      * md. f_equal. rewrite !map_map. reflexivity.
      * destruct (_ =? _); [|apply ms_raise]. md. f_equal. apply (E (okep s0)).
Qed.
Lemma ms_propagate v : msim self (propagate gb (on_arg (scl (i - j)) v)) (@propagate V N gb v).
Proof using D.
  unfold propagate. apply ms_bget. intros s. sx. cbv zeta. apply (ms_bind self); [auto with units|]. intros m. eapply ms_bind; [apply ms_motion|]. intros n. rewrite map_length.
  eapply ms_blift; [now apply bcast1_on|]. intros ds.
  set (w := if odeg s then _ else _).
  assert (E : map3 (fun m n dt => nmod (m + n * dt) w)%np m (map (scl (j - i)) n) (map (scl (i - j)) ds) = map3 (fun m n dt => @nmod V N (@add V N m (@mul V N n dt)) w) m n ds).
  { rewrite <- (map_id m) at 1. rewrite <- (map_id (map3 _ m n ds)). apply map3_maps. intros x y z. do 2 f_equal. apply sc_eq. apply (sc_mul rd L D (j - i) (i - j)); [reflexivity|reflexivity|lia]. }
  rewrite E. apply ms_seq; [auto with units|]. go.
Qed.
Lemma rbind_map {A B} (f : A -> A) (g : B -> B) r (k' k : A -> res B) : (forall x, k' (f x) = rmap g (k x)) -> rbind (rmap f r) k' = rmap g (rbind r k).
Proof using Type. intros E. destruct r; cbn; auto. Qed.
Lemma assign_on f row inds v : f NaN = NaN -> assign (map f row) inds (on_arg f v) = rmap (map f) (@assign V N row inds v).
Proof using Type.
  intros E. unfold assign. rewrite map_length. destruct (resolve (length row) inds) as [ps|]; cbn [rbind rmap]; auto. rewrite (bcast1_on f _ v E).
  apply rbind_map. intros vs. cbn. now rewrite put_maps.
Qed.
Lemma ms_set_m inds v : msim self (set_m inds (on_arg (scl l) v)) (@set_m V N inds v).
Proof using Type. unfold set_m. apply ms_bget. intros s. sx. eapply ms_blift; [now apply assign_on|]. intros row. md. Qed.

Definition onr (d : nat -> Z) (h : nat -> V) : nat -> V := fun r => scl (d r) (h r).
Lemma bcast2_rows d r n v : mat6 v -> bcast2 r n (on6 d v) = rmap (map (onr d)) (@bcast2 V N r n v).
Proof using Type.
  intros (k & m & x & ->). cbn [on6 bcast2 strip_ones]. change (@nan V N) with NaN. destruct (negb (6 =? r)); auto. destruct (Nat.eqb_spec k n) as [->|Ne]; cbn [rmap].
  - f_equal. rewrite map_map. apply map_ext_in. intros p Hp. apply in_seq in Hp. apply functional_extensionality. intros q. unfold onr. rewrite rows_nth. do 2 f_equal.
    rewrite Nat.div_add_l by lia. rewrite Nat.div_small by lia. lia.
  - destruct (Nat.eqb_spec k 1) as [->|Ne']; cbn [rmap]; auto. rewrite <- repeat_maps. do 2 f_equal. apply functional_extensionality. intros q. unfold onr. rewrite rows_nth. now rewrite Nat.div_1_r.
Qed.
Lemma whole_rows d n v : mat6 v \/ vec6 v -> whole_value n (on6 d v) = rmap (map (s6 d)) (@whole_value V N n v).
Proof using Type.
  assert (E : forall cs, Ok (map six_of (map (onr d) cs)) = rmap (map (s6 d)) (Ok (map six_of cs))) by (intros cs; cbn [rmap]; rewrite !map_map; reflexivity).
  intros [H|(m & x & ->)].
  - pose proof (bcast2_rows d 6 n v H) as Q. destruct H as (k & m & x & ->). cbn [on6] in *. cbn [whole_value]. rewrite Q. now apply rbind_map.
  - pose proof (bcast2_rows d 6 n (Arr [6; 1] m x) ltac:(now exists 1, m, x)) as Q. cbn [on6] in *. cbn [whole_value]. rewrite Q. now apply rbind_map.
Qed.
Lemma map_scx_s6 q : map (s6 dc) q = map (scx i j) q. Proof using Type. reflexivity. Qed.
Lemma map_sck_s6 q : map (s6 dk) q = map (sck i) q. Proof using Type. apply map_ext. intros. symmetry. apply sck_s6. Qed.
Lemma ms_set_cart v : mat6 v \/ vec6 v -> msim self (set_cartesian gb (on6 dc v)) (@set_cartesian V N gb v).
Proof using D.
  intros Hv. unfold set_cartesian. apply ms_bget. intros s. sx. destruct (ocro s); [apply ms_raise|]. rewrite map_length. eapply ms_blift; [now apply whole_rows|]. intros cs.
  apply ms_seq; [md|auto with units].
Qed.
Lemma ms_set_kep v : mat6 v \/ vec6 v -> msim self (set_kepler gb (on6 dk v)) (@set_kepler V N gb v).
Proof using D.
  intros Hv. unfold set_kepler. apply ms_bget. intros s. sx. destruct (okro s); [apply ms_raise|]. rewrite map_length. eapply ms_blift; [now apply whole_rows|]. intros cs.
  apply ms_seq; [md|auto with units]. now rewrite map_sck_s6.
Qed.
(** a value for [x\[:, inds\] = v]: a (6,) array for an integer index, a (6,n) array for any index *)
Definition fits6 (inds : Idx) (v : arg V) : Prop := mat6 v \/ (vec6 v /\ exists z, inds = IInt z).
Lemma assign_cols_rows d cols inds v : fits6 inds v -> assign_cols (map (s6 d) cols) inds (on6 d v) = rmap (map (s6 d)) (@assign_cols V N cols inds v).
Proof using Type.
  intros Hv. unfold assign_cols. rewrite map_length. destruct (resolve (length cols) inds) as [ps|]; cbn [rbind rmap]; auto.
  assert (G : mat6 v -> (rlet cs := bcast2 6 (length ps) (on6 d v) in Ok (put ps (map six_of cs) (map (s6 d) cols)))
                        = rmap (map (s6 d)) (rlet cs := @bcast2 V N 6 (length ps) v in Ok (put ps (map six_of cs) cols))).
  { intros Q. rewrite (bcast2_rows d 6 _ v Q). apply rbind_map. intros cs. cbn [rmap]. f_equal. rewrite <- put_maps, !map_map. reflexivity. }
  destruct Hv as [Hv|[(m & x & ->) [z ->]]].
  - specialize (G Hv). destruct inds; try exact G. destruct Hv as (k & m & x & ->). reflexivity.
  - cbn [on6 bcast1 strip_ones Nat.eqb rbind rmap]. rewrite <- (put_maps (s6 d)), <- (repeat_maps (s6 d)). change (@nan V N) with NaN. do 3 f_equal. unfold s6, six_of. cbn [s0 s1 s2 s3 s4 s5]. rewrite !rows_nth, !Nat.div_1_r. reflexivity.
Qed.
Lemma row_s6 d k cols : (forall q, d (S (S (S (S (S q))))) = d 5) -> map (row_get k) (map (s6 d) cols) = map (scl (d k)) (map (row_get k) cols).
Proof using Type. intros E. rewrite !map_map. apply map_ext. intros c. destruct k as [|[|[|[|[|k]]]]]; try reflexivity. cbn. now rewrite (E k). Qed.
Lemma set_row_s6 d k cols vs : (forall q, d (S (S (S (S (S q))))) = d 5) -> set_row k (map (s6 d) cols) (map (scl (d k)) vs) = map (s6 d) (set_row k cols vs).
Proof using Type. intros E. unfold set_row. apply map2_maps. intros c x. destruct k as [|[|[|[|[|k]]]]]; try reflexivity. cbn. now rewrite (E k). Qed.
Definition on_key (d : nat -> Z) (k : nat * option (arg V)) : nat * option (arg V) := (fst k, option_map (on_arg (scl (d (fst k)))) (snd k)).
Lemma keys_rows d ks cols inds : (forall q, d (S (S (S (S (S q))))) = d 5) ->
  assign_keys (map (on_key d) ks) (map (s6 d) cols) inds = (map (s6 d) (fst (@assign_keys V N ks cols inds)), snd (@assign_keys V N ks cols inds)).
Proof using Type.
  intros E. revert cols. induction ks as [|[k [v|]] ks IH]; intros cols; cbn [map on_key fst snd option_map assign_keys]; auto.
  unfold assign_row. rewrite (row_s6 d k cols E), assign_on by reflexivity. destruct (assign (map (row_get k) cols) inds v) as [r|]; cbn [rbind rmap fst snd]; auto.
  rewrite (set_row_s6 d k cols r E). apply IH.
Qed.
(** keyword arguments in the new units *)
Definition row6 (d : nat -> Z) (c : six (option (arg V))) : six (option (arg V)) := six_of (fun r => option_map (on_arg (scl (d r))) (row_get r c)).
Definition ukws (kw : kws V) : kws V :=
  mkkws (option_map (on6 dc) (kw_cartesian kw)) (option_map (on6 dk) (kw_kepler kw)) (option_map (on_arg (scl l)) (kw_m kw)) (row6 dc (kw_c kw)) (row6 dk (kw_k kw)).
Definition kw_fits (inds : Idx) (kw : kws V) : Prop :=
  (forall v, kw_cartesian kw = Some v -> fits6 inds v) /\ (forall v, kw_kepler kw = Some v -> fits6 inds v).
Lemma keys_row6 d c : keys (row6 d c) = map (on_key d) (keys c). Proof using Type. reflexivity. Qed.
Lemma some_map {A B} (f : A -> B) o : is_some (option_map f o) = is_some o. Proof using Type. now destruct o. Qed.
Lemma some_row6 d c : some6 (row6 d c) = some6 c. Proof using Type. unfold some6, row6, six_of. cbn [s0 s1 s2 s3 s4 s5 row_get]. now rewrite !some_map. Qed.
Lemma ms_mark_cart inds : msim self (mark_cart gb inds) (@mark_cart V N gb inds). Proof using D. unfold mark_cart. go. Qed.
Lemma ms_mark_kep inds : msim self (mark_kep gb inds) (@mark_kep V N gb inds). Proof using D. unfold mark_kep. go. Qed.
Hint Resolve ms_mark_cart ms_mark_kep : units.
Lemma dc5 q : dc (S (S (S (S (S q))))) = dc 5. Proof using Type. reflexivity. Qed.
Lemma dk5 q : dk (S (S (S (S (S q))))) = dk 5. Proof using Type. reflexivity. Qed.
Lemma ms_update inds kw : kw_fits inds kw -> msim self (update gb inds (ukws kw)) (@update V N gb inds kw).
Proof using D.
  intros [Fc Fk]. unfold update. apply ms_bget. intros s. sx. destruct kw as [oc ok om c k]. unfold ukws. cbn [kw_cartesian kw_kepler kw_m kw_c kw_k] in *.
  destruct oc as [v|]; cbn [option_map].
  { destruct (ocro s); [apply ms_raise|]. eapply ms_blift; [exact (assign_cols_rows dc (ocart s) inds v (Fc v eq_refl))|]. intros cs. apply ms_seq; [md|auto with units]. }
  destruct ok as [v|]; cbn [option_map].
  { destruct (okro s); [apply ms_raise|]. rewrite <- map_sck_s6. eapply ms_blift; [exact (assign_cols_rows dk (okep s) inds v (Fk v eq_refl))|]. intros cs. apply ms_seq; [md; now rewrite map_sck_s6|auto with units]. }
  cbv zeta. rewrite !some_row6. destruct (some6 c && ocro s); [apply ms_raise|]. destruct (some6 k && okro s); [apply ms_raise|]. destruct (some6 k && some6 c); [apply ms_raise|].
  apply ms_seq.
  { destruct om as [v|]; cbn [option_map]; [|now apply ms_ret]. destruct (odirect s); [apply ms_raise|]. eapply ms_blift; [now apply assign_on|]. intros row. md. }
  apply ms_seq.
  - destruct (some6 c); [|now apply ms_ret]. apply ms_seq; [|auto with units]. intros t. sx. rewrite keys_row6. pose proof (keys_rows dc (keys c) (ocart t) inds dc5) as Q. rewrite map_scx_s6 in Q. rewrite Q.
    destruct (assign_keys (keys c) (ocart t) inds) as [cs r]. cbn [fst snd]. rewrite rmap_id. reflexivity.
  - destruct (some6 k); [|now apply ms_ret]. apply ms_seq; [|auto with units]. intros t. sx. rewrite keys_row6. pose proof (keys_rows dk (keys k) (okep t) inds dk5) as Q. rewrite map_sck_s6 in Q. rewrite Q.
    destruct (assign_keys (keys k) (okep t) inds) as [cs r]. cbn [fst snd]. rewrite rmap_id, map_sck_s6. reflexivity.
Qed.
Lemma drop_u kw : drop_m (ukws kw) = ukws (drop_m kw). Proof using Type. reflexivity. Qed.
Lemma lit0_scl q : @lit V N 0 = scl q (@lit V N 0).
Proof using D. cbn [lit NP_rd]. assert (Q2R 0 = 0)%R as -> by (unfold Q2R; cbn; lra). rewrite (rd_00 rd D). cbn [scl]. now rewrite Rmult_0_r. Qed.
Lemma ms_add n kw : (forall k, kw_fits (IRange k (k + n)) kw) -> msim self (add_orbits gb n (ukws kw)) (@add_orbits V N gb n kw).
Proof using D.
  intros Fk. unfold add_orbits. apply ms_bget. intros s. sx. cbv zeta. rewrite num_so.
  apply ms_seq. { md. f_equal. now rewrite map_app, <- repeat_maps, <- lit0_scl. }
  apply ms_seq. { md. f_equal. now rewrite map_app, <- repeat_maps. }
  apply ms_seq. { md. f_equal. now rewrite map_app, <- repeat_maps. }
  apply ms_seq; [md|]. apply ms_seq; [go|]. apply ms_seq; [md|]. apply ms_seq; [md|]. apply ms_seq; [md|]. apply ms_seq.
  - destruct kw as [oc ok om c k]. cbn [ukws kw_m option_map]. destruct om as [v|]; cbn [option_map]; [|now apply ms_ret]. apply ms_bget. intros t. sx.
    eapply ms_blift; [now apply assign_on|]. intros row. md.
  - rewrite drop_u. apply ms_update. apply Fk.
Qed.
Lemma del_on {A} (f : A -> A) inds q : del inds (map f q) = rmap (map f) (del inds q).
Proof using Type. unfold del. rewrite map_length. destruct (resolve_del (length q) inds); cbn; auto. now rewrite delete_maps. Qed.
Lemma ms_delete inds : msim self (delete inds) (@delete V inds).
Proof using Type.
  unfold delete. apply ms_bget. intros s. sx. do 3 (eapply ms_blift; [apply del_on|]; intros ?; apply ms_seq; [md|]). go.
Qed.
Lemma ms_allocate n : msim self (allocate n) (@allocate V N n).
Proof using D. unfold allocate. apply ms_modify. intros s. unfold so. sx. rewrite <- !repeat_maps, <- lit0_scl. reflexivity. Qed.
Lemma item_so inds s : getitem inds (so s) = rmap so (@getitem V N inds s).
Proof using Type.
  unfold getitem. sx. rewrite !map_length. destruct (resolve (length (om s)) inds) as [ps|]; cbn [rbind rmap]; auto.
  destruct (resolve (length (okep s)) inds) as [ps'|]; cbn [rbind rmap]; auto. rewrite !pick_map, map_length. reflexivity.
Qed.
Lemma ms_next : msim so next (@next V N).
Proof using Type.
  unfold next. apply ms_bget. intros s. sx. rewrite num_so. destruct (oit s) as [k|]; [|apply ms_raise]. destruct (k <? OrbitModel.num s); [|apply ms_raise].
  apply ms_seq; [md|]. apply ms_bget. intros t. apply ms_lift, item_so.
Qed.

(** the same method call in the new units *)
Definition uop (o : op V) : op V :=
  match o with
  | OSetCartRow k v => OSetCartRow k (on_arg (scl (dc k)) v) | OSetKepRow k v => OSetKepRow k (on_arg (scl (dk k)) v)
  | OSetR v => OSetR (on_arg (scl i) v) | OSetV v => OSetV (on_arg (scl j) v)
  | OSetCart v => OSetCart (on6 dc v) | OSetKep v => OSetKep (on6 dk v)
  | OSetPeriod v => OSetPeriod (on_arg (scl (i - j)) v) | OSetMeanMotion v => OSetMeanMotion (on_arg (scl (j - i)) v)
  | OSetEqui v => OSetEqui (on_in (sck i) v) | OSetVelocity v => OSetVelocity (on_arg (scl j) v)
  | OSetM inds v => OSetM inds (on_arg (scl l) v) | OUpdate inds kw => OUpdate inds (ukws kw)
  | OPropagate v => OPropagate (on_arg (scl (i - j)) v) | OAdd n kw => OAdd n (ukws kw)
  | o => o
  end.
(** whole states are given as arrays with six rows; one number for all six rows has no unit *)
Definition op_fits (o : op V) : Prop :=
  match o with
  | OSetCart v | OSetKep v => mat6 v \/ vec6 v
  | OUpdate inds kw => kw_fits inds kw
  | OAdd n kw => forall k, kw_fits (IRange k (k + n)) kw
  | _ => True
  end.
Lemma ms_run o : op_fits o -> msim self (run_op gb (uop o)) (@run_op V N gb o).
Proof using D.
  destruct o; cbn [op_fits uop run_op]; intros Hf; auto with units nocore.
  - exact (ms_void _ _ _ ms_cartesian).
  - exact (ms_void _ _ _ ms_kepler).
  - exact (ms_void _ _ _ ms_true).
  - exact (ms_void _ _ _ ms_ecc).
  - exact (ms_void _ _ _ ms_mean).
  - exact (ms_void _ _ _ ms_period).
  - exact (ms_void _ _ _ ms_equi).
  - exact (ms_void _ _ _ ms_velocity).
  - exact (ms_void _ _ _ ms_speed).
  - apply ms_set_cart_row.
  - apply ms_set_kep_row.
  - apply ms_set_r.
  - apply ms_set_v.
  - now apply ms_set_cart.
  - now apply ms_set_kep.
  - apply ms_raise.
  - apply ms_set_motion.
  - apply ms_set_equi.
  - apply ms_set_velocity.
  - apply ms_set_type.
  - apply ms_set_m.
  - md.
  - now apply ms_update.
  - apply ms_propagate.
  - apply ms_delete.
  - now apply ms_add.
  - apply ms_allocate.
  - unfold iter. md.
  - exact (ms_void _ _ _ ms_next).
Qed.
End Units.

(** ** The properties *)
(** a sequence of method calls; a failed call leaves the object as the exception found it; the outcome of every call is kept *)
Fixpoint calls {F} `{NP F} (gb : nat -> nat -> F) (os : list (op F)) (s : OrbitModel.orb F) : OrbitModel.orb F * list (res unit) :=
  match os with
  | [] => (s, [])
  | o :: t => let '(s1, r) := run_op gb o s in let '(s2, rs) := calls gb t s1 in (s2, r :: rs)
  end.
(** Any sequence of method calls, with every argument in the new units, on the object in the new units: the same
    exceptions, and in the end the same object in the new units, digit for digit. *)
Theorem C95_history : forall rd L i j l gb os s, digits rd -> (forall o, In o os -> op_fits o) ->
  @calls V (NP_rd rd L) gb (map (uop i j l) os) (so i j l s) = (so i j l (fst (@calls V (NP_rd rd L) gb os s)), snd (@calls V (NP_rd rd L) gb os s)).
Proof.
  intros rd L i j l gb os s D. revert s. induction os as [|o os IH]; intros s Hf; [reflexivity|]. cbn [map calls].
  rewrite (ms_run rd L D i j l gb o (Hf o (or_introl eq_refl)) s), rmap_id. destruct (@run_op V (NP_rd rd L) gb o s) as [s1 r]. cbn [fst snd].
  rewrite IH by (intros; apply Hf; now right). destruct (@calls V (NP_rd rd L) gb os s1) as [s2 rs]. reflexivity.
Qed.
(** the method [m] commutes with the change of units; [f]: the returned value in the new units *)
Definition in_units (i j l : Z) {A} (f : A -> A) (m : M A) : Prop := forall s, m (so i j l s) = (so i j l (fst (m s)), rmap f (snd (m s))).
(** what the getters return: lengths times 2^i, speeds times 2^j, times times 2^(i-j), angles and eccentricity the same *)
Theorem C95_getters : forall rd L i j l gb, digits rd ->
  let u {A} (f : A -> A) := @in_units i j l A f in
  u (map (scx i j)) (@get_cartesian V (NP_rd rd L) gb) /\ u (map (sck i)) (@get_kepler V (NP_rd rd L) gb) /\
  u (map (sv i)) (@get_r V (NP_rd rd L) gb) /\ u (map (sv j)) (@get_v V (NP_rd rd L) gb) /\
  u (map (scl i)) (@get_kep_row V (NP_rd rd L) gb 0) /\ u (fun x => x) (@get_e V (NP_rd rd L) gb) /\
  u (fun x => x) (@get_true_anomaly V (NP_rd rd L) gb) /\ u (fun x => x) (@get_eccentric_anomaly V (NP_rd rd L) gb) /\
  u (fun x => x) (@get_mean_anomaly V (NP_rd rd L) gb) /\ u (fun x => x) (@get_mean_longitude V (NP_rd rd L) gb) /\
  u (map (scl (i - j))) (@get_period V (NP_rd rd L) gb) /\ u (map (scl (j - i))) (@get_mean_motion V (NP_rd rd L) gb) /\
  u (map (scl i)) (@get_apoapsis V (NP_rd rd L) gb) /\ u (map (scl i)) (@get_periapsis V (NP_rd rd L) gb) /\
  u (map (scl j)) (@get_velocity V (NP_rd rd L) gb) /\ u (map (scl j)) (@get_speed V (NP_rd rd L) gb) /\
  u (on_in (sck i)) (@get_equinoctial V (NP_rd rd L) gb) /\ u (so i j l) (@next V (NP_rd rd L)).
Proof.
  intros rd L i j l gb D u. unfold u.
  split; [exact (ms_cartesian rd L D i j l gb)|]. split; [exact (ms_kepler rd L D i j l gb)|].
  split; [exact (ms_r rd L D i j l gb)|]. split; [exact (ms_v rd L D i j l gb)|].
  split; [exact (ms_kep_row rd L D i j l gb 0)|]. split; [exact (ms_e rd L D i j l gb)|].
  split; [exact (ms_true rd L D i j l gb)|]. split; [exact (ms_ecc rd L D i j l gb)|].
  split; [exact (ms_mean rd L D i j l gb)|]. split; [exact (ms_longitude rd L D i j l gb)|].
  split; [exact (ms_period rd L D i j l gb)|]. split; [exact (ms_motion rd L D i j l gb)|].
  split; [exact (ms_apo rd L D i j l gb)|]. split; [exact (ms_peri rd L D i j l gb)|].
  split; [exact (ms_velocity rd L D i j l gb)|]. split; [exact (ms_speed rd L D i j l gb)|].
  split; [exact (ms_equi rd L D i j l gb)|]. exact (ms_next rd L i j l).
Qed.
(** the constructor, and indexing and copying *)
Definition ucfg (k : Z) (c : config V) : config V :=
  mkconfig (cf_auto c) (cf_direct c) (scl k (cf_G c)) (cf_opts c) (cf_deg c) (cf_type c) (cf_num c) (cf_kro c) (cf_cro c).
Theorem C95_construct : forall rd L i j l gb M0 c kw, digits rd -> kw_fits IAll kw ->
  @init V (NP_rd rd L) gb (scl l M0) (ucfg (i + 2 * j - l) c) (ukws i j l kw) = rmap (so i j l) (@init V (NP_rd rd L) gb M0 c kw) /\
  forall inds s, @getitem V (NP_rd rd L) inds (so i j l s) = rmap (so i j l) (@getitem V (NP_rd rd L) inds s).
Proof.
  intros rd L i j l gb M0 c kw D Hf. split; [|intros inds s; exact (item_so rd L i j l inds s)].
  unfold init. cbn [ucfg cf_type cf_auto cf_direct cf_G cf_deg cf_opts cf_num cf_kro cf_cro]. destruct (anomaly_of (cf_type c)) as [t|]; [|reflexivity]. cbv zeta.
  set (s := mkorb M0 (cf_G c) (cf_auto c) (cf_direct c) false false (cf_deg c) t (cf_opts c) [] [] [] [] (fresh [0] []) [] [] [] None).
  match goal with |- context [mkorb (scl l M0) ?a ?b ?d ?e ?f ?g ?h ?k ?m ?n ?o ?p ?q ?r ?x ?y ?z] => change (mkorb (scl l M0) a b d e f g h k m n o p q r x y z) with (so i j l s) end.
  match goal with |- context [?m' (so i j l s)] => match goal with |- context [?m s] =>
    lazymatch m with so _ _ _ => fail | _ => assert (Q : msim i j l (fun x => x) m' m) end end end.
  { apply ms_seq; [exact (ms_allocate rd L D i j l (cf_num c))|]. apply ms_seq.
    - destruct kw as [oc ok om ck kk]. cbn [ukws kw_m option_map]. destruct om as [v|]; cbn [option_map]; [apply ms_set_m|now apply ms_ret].
    - destruct (cf_num c =? 0); [now apply ms_ret|]. exact (ms_update rd L D i j l gb IAll (drop_m kw) Hf). }
  rewrite Q. match goal with |- context [?m s] => lazymatch m with so _ _ _ => fail | _ => destruct (m s) as [s1 [x|e]] end end; reflexivity.
Qed.
(** ** Hypotheses met: kilometres to units of 1024 km would be i = -10; here lengths times 2^10, speeds times 2^-3 (times times 2^13), masses times 4.
    One orbit of a satellite is set, propagated by a minute and its speed is set to 7. *)
Definition ex_kep6 : arg V := Arr [6] (seq 0 6) [Fin 7000; Fin (1 / 2); Fin 1; Fin 2; Fin 3; Fin (1 / 4)].
Definition ex_obj (o : solver_options V) : OrbitModel.orb V :=
  mkorb (Fin 5) (Fin 79720) true false false false false ATrue o [Fin 0] [mk6 NaN NaN NaN NaN NaN NaN] [mk6 NaN NaN NaN NaN NaN NaN]
        [NaN] (fresh [1] [NaN]) [NaN] [false] [false] None.
Example C95_example : forall rd L o gb, digits rd ->
  let os := [OSetKep ex_kep6; OPropagate (Sc (Fin 60)); OSetVelocity (Sc (Fin 7))] in
  map (uop 10 (-3) 2) os = [OSetKep (Arr [6] (seq 0 6) [Fin (1024 * 7000); Fin (1 * (1 / 2)); Fin (1 * 1); Fin (1 * 2); Fin (1 * 3); Fin (1 * (1 / 4))]);
                            OPropagate (Sc (Fin (8192 * 60))); OSetVelocity (Sc (Fin (/ 8 * 7)))] /\
  okep (fst (@run_op V (NP_rd rd L) gb (OSetKep ex_kep6) (ex_obj o))) = [mk6 (Fin 7000) (Fin (1 / 2)) (Fin 1) (Fin 2) (Fin 3) (Fin (1 / 4))] /\
  @calls V (NP_rd rd L) gb (map (uop 10 (-3) 2) os) (so 10 (-3) 2 (ex_obj o))
  = (so 10 (-3) 2 (fst (@calls V (NP_rd rd L) gb os (ex_obj o))), snd (@calls V (NP_rd rd L) gb os (ex_obj o))).
Proof.
  intros rd L o gb D os. split; [reflexivity|]. split; [reflexivity|]. apply C95_history; auto.
  intros q [<-|[<-|[<-|[]]]]; cbn [op_fits]; auto. right. now exists (seq 0 6), [Fin 7000; Fin (1 / 2); Fin 1; Fin 2; Fin 3; Fin (1 / 4)].
Qed.
Example C95_init_example : forall rd L c gb, digits rd ->
  @init V (NP_rd rd L) gb (scl 2 (Fin 5)) (ucfg 2 c) (ukws 10 (-3) 2 (mkkws None None None no6 (mk6 (Some (Sc (Fin 7000))) (Some (Sc (Fin (1 / 2)))) None None None None)))
  = rmap (so 10 (-3) 2) (@init V (NP_rd rd L) gb (Fin 5) c (mkkws None None None no6 (mk6 (Some (Sc (Fin 7000))) (Some (Sc (Fin (1 / 2)))) None None None None))).
Proof. intros rd L c gb D. apply (C95_construct rd L 10 (-3) 2 gb (Fin 5) c _ D). split; discriminate. Qed.
