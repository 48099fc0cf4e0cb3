(** * The methods of HeapModel.v compute what the methods of OrbitModel.v compute and touch no memory
    that the object does not own. *)
From Coq Require Import Ascii String List Bool ZArith QArith Lia.
From Verif Require Import NP KeplerModel ConvModel UnitModel OrbitModel HeapModel.
Import ListNotations.
Local Open Scope nat_scope.

Section Sim.
Context {F : Type} `{NP F}.
Notation orb := (orb F).
Notation obj := (obj F).
Notation heap := (heap F).
Variable gb : nat -> nat -> F.

Lemma ld_upd_same (h : heap) a c : a < length h -> ld (upd_nth a c h) a = c.
Proof.
  unfold ld. revert a. induction h as [|x t IH]; intros [|a] L; cbn in *; try lia; [reflexivity|].
  apply IH. lia.
Qed.
Lemma ld_upd_other (h : heap) a a' c : a <> a' -> ld (upd_nth a c h) a' = ld h a'.
Proof.
  unfold ld. revert a a'. induction h as [|x t IH]; intros [|a] [|a'] N; cbn; try reflexivity; try lia.
  apply IH. lia.
Qed.
Lemma upd_len (h : heap) a c : length (upd_nth a c h) = length h.
Proof. revert a. induction h as [|x t IH]; intros [|a]; cbn; auto. Qed.
Lemma ld_app (h t : heap) a : a < length h -> ld (h ++ t) a = ld h a.
Proof. intros L. unfold ld. apply app_nth1. exact L. Qed.
Lemma ld_new (h t : heap) c : ld (h ++ c :: t) (length h) = c.
Proof. unfold ld. rewrite app_nth2, Nat.sub_diag by lia. reflexivity. Qed.

(** the cells of an object; all but the masses are private *)
Definition priv (b : obj) : list nat := [a_o b; a_cart b; a_kep b; a_nu b; a_E b; a_Ma b; a_cf b; a_kf b].
Definition owned (b : obj) : list nat := a_m b :: priv b.
Definition good (b : obj) (h : heap) : Prop := NoDup (owned b) /\ forall a, In a (owned b) -> a < length h.
(** [b'] with [h'] comes after [b] with [h]: nothing is freed, cells [b] does not own are unchanged,
    the cells of [b'] are cells of [b] or new *)
Definition ext (b : obj) (h : heap) (b' : obj) (h' : heap) : Prop :=
  length h <= length h' /\
  (forall a, a < length h -> ~ In a (owned b) -> ld h' a = ld h a) /\
  (forall a, In a (priv b') -> In a (priv b) \/ length h <= a) /\
  (a_m b' = a_m b \/ length h <= a_m b').
Lemma ext_refl b h : ext b h b h.
Proof. repeat split; auto. Qed.
Lemma ext_owned b h b' h' a : ext b h b' h' -> In a (owned b') -> In a (owned b) \/ length h <= a.
Proof.
  intros (_ & _ & P & M) [<-|I].
  - destruct M as [->|M]; [left; left; reflexivity|right; exact M].
  - destruct (P _ I); [left; right; assumption|right; assumption].
Qed.
Lemma ext_trans b h b1 h1 b2 h2 : ext b h b1 h1 -> ext b1 h1 b2 h2 -> ext b h b2 h2.
Proof.
  intros X1 X2. pose proof X1 as (L1 & U1 & P1 & M1). pose proof X2 as (L2 & U2 & P2 & M2).
  repeat split.
  - lia.
  - intros a L N. rewrite U2, U1; [reflexivity|exact L|exact N|lia|].
    intros I. destruct (ext_owned _ _ _ _ a X1 I); [contradiction|lia].
  - intros a I. destruct (P2 _ I) as [I1|]; [destruct (P1 _ I1); [left; assumption|right; lia]|right; lia].
  - destruct M2 as [->|]; [exact M1|right; lia].
Qed.

Definition sim {A} (hm : HM A) (m : M A) : Prop :=
  forall b h b' h' r, good b h -> hm (b, h) = ((b', h'), r) ->
  m (view b h) = (view b' h', r) /\ good b' h' /\ ext b h b' h'.
(** a method that returns a reference: to a new cell, not owned by the object *)
Definition simr {A} (enc : A -> arg F) (hm : HM nat) (m : M A) : Prop :=
  forall b h b' h' r, good b h -> hm (b, h) = ((b', h'), r) ->
  good b' h' /\ ext b h b' h' /\
  match r with
  | Ok a => exists x, m (view b h) = (view b' h', Ok x) /\ ld h' a = CA (enc x) /\
                      length h <= a < length h' /\ ~ In a (owned b')
  | Raise e => m (view b h) = (view b' h', Raise e)
  end.

Ltac scal := intros b h b' h' r G E; injection E as <- <- <-; split; [reflexivity|split; [exact G|apply ext_refl]].
Lemma sim_ret {A} (x : A) : sim (hret x) (ret x).
Proof. scal. Qed.
Lemma sim_raise {A} e : sim (@hraise F A e) (raise e).
Proof. scal. Qed.
Lemma sim_lift {A} (x : res A) : sim (hlift x) (lift x).
Proof. scal. Qed.
Lemma sim_get : sim hget get.
Proof. scal. Qed.
Lemma sim_bind {A B} (hm : HM A) m (hf : A -> HM B) f :
  sim hm m -> (forall x, sim (hf x) (f x)) -> sim (hbind hm hf) (bind m f).
Proof.
  intros S1 S2 b h b' h' r G E. unfold hbind in E. destruct (hm (b, h)) as [[b1 h1] [x|e]] eqn:E1.
  - destruct (S1 _ _ _ _ _ G E1) as (V1 & G1 & X1). destruct (S2 x _ _ _ _ _ G1 E) as (V2 & G2 & X2).
    unfold bind. rewrite V1. split; [exact V2|]. split; [exact G2|]. eapply ext_trans; eassumption.
  - destruct (S1 _ _ _ _ _ G E1) as (V1 & G1 & X1). injection E as <- <- <-.
    unfold bind. rewrite V1. auto.
Qed.
(** in-place writes *)
Lemma good_upd b h a c : good b h -> good b (upd_nth a c h).
Proof. intros [N L]. split; [exact N|]. intros a' I. rewrite upd_len. auto. Qed.
Lemma ext_upd b h a c : In a (owned b) -> ext b h b (upd_nth a c h).
Proof.
  intros I. repeat split; auto; [rewrite upd_len; lia|]. intros a' _ N. apply ld_upd_other. congruence.
Qed.
Ltac nd := match goal with [ N : NoDup _ |- _ ] =>
  unfold owned, priv in N; repeat (apply NoDup_cons_iff in N; let K := fresh "K" in destruct N as [K N]; cbn [In] in K) end.
Ltac write := intros b h b' h' r G E; injection E as <- <- <-;
  split; [|split; [apply good_upd, G|apply ext_upd; unfold owned, priv; cbn [In]; tauto]];
  destruct G as [N L]; nd;
  unfold modify, with_m, with_cart, with_kep, with_nu, with_E, with_Ma, with_cf, with_kf, view;
  cbn [oM0 oG oauto odirect okro ocro odeg otype oopts om ocart okep onu oE oMa ocf okf oit];
  rewrite ld_upd_same by (apply L; unfold owned, priv; cbn [In]; tauto);
  rewrite !ld_upd_other by (intuition congruence); reflexivity.
Lemma sim_w_m g : sim (w_m g) (modify (with_m g)). Proof. write. Qed.
Lemma sim_w_cart g : sim (w_cart g) (modify (with_cart g)). Proof. write. Qed.
Lemma sim_w_kep g : sim (w_kep g) (modify (with_kep g)). Proof. write. Qed.
Lemma sim_w_nu g : sim (w_nu g) (modify (with_nu g)). Proof. write. Qed.
Lemma sim_w_E g : sim (w_E g) (modify (with_E g)). Proof. write. Qed.
Lemma sim_w_Ma g : sim (w_Ma g) (modify (with_Ma g)). Proof. write. Qed.
Lemma sim_w_cf g : sim (w_cf g) (modify (with_cf g)). Proof. write. Qed.
Lemma sim_w_kf g : sim (w_kf g) (modify (with_kf g)). Proof. write. Qed.
(** new cells *)
Lemma good_app b h t : good b h -> good b (h ++ t).
Proof. intros [N L]. split; [exact N|]. intros a I. rewrite app_length. specialize (L a I). lia. Qed.
Lemma view_app b h t : good b h -> view b (h ++ t) = view b h.
Proof.
  intros [_ L]. unfold view. rewrite !ld_app by (apply L; unfold owned, priv; cbn [In]; tauto). reflexivity.
Qed.
Lemma ext_app b h t : ext b h b (h ++ t).
Proof. repeat split; auto; [rewrite app_length; lia|]. intros a L _. apply ld_app, L. Qed.
Lemma nodup_repl {A} n (y : A) l : NoDup l -> ~ In y l -> NoDup (firstn n l ++ y :: skipn (S n) l).
Proof.
  revert n. induction l as [|x t IH]; intros n N I.
  - destruct n; cbn; constructor; auto; constructor.
  - apply NoDup_cons_iff in N. destruct N as [Nx N]. destruct n as [|n]; cbn [firstn skipn app].
    + constructor; [cbn in I; tauto|exact N].
    + constructor; [|apply IH; [exact N|cbn in I; tauto]].
      intros J. apply in_app_or in J. destruct J as [J|[J|J]].
      * apply Nx. rewrite <- (firstn_skipn n t). apply in_or_app. left. exact J.
      * apply I. left. congruence.
      * apply Nx. rewrite <- (firstn_skipn (S n) t). apply in_or_app. right. exact J.
Qed.
Ltac rebind n := intros b h b' h' r G E; injection E as <- <- <-; destruct G as [N L];
  assert (K0 : forall a, In a (owned b) -> a <> length h) by (intros a I ->; specialize (L _ I); lia);
  assert (L0 : forall t a, In a (owned b) -> ld (h ++ t) a = ld h a) by (intros; apply ld_app, L; assumption);
  unfold owned, priv in *; cbn [In] in *;
  split; [|split; [split|]];
  [ unfold modify, with_m, with_cart, with_kep, with_nu, with_E, with_Ma, with_cf, with_kf, view;
    cbn [oM0 oG oauto odirect okro ocro odeg otype oopts om ocart okep onu oE oMa ocf okf oit
         to_m to_cart to_kep to_nu to_E to_Ma to_cf to_kf
         b_s a_o a_m a_cart a_kep a_nu a_E a_Ma a_cf a_kf]; rewrite ld_new, !L0 by tauto; reflexivity
  | exact (nodup_repl n (length h) _ N (fun I => K0 _ I eq_refl))
  | unfold owned, priv, to_m, to_cart, to_kep, to_nu, to_E, to_Ma, to_cf, to_kf;
    cbn [b_s a_o a_m a_cart a_kep a_nu a_E a_Ma a_cf a_kf In]; intros a I; rewrite app_length; cbn [length];
    destruct (Nat.eq_dec a (length h)); [lia|]; assert (a < length h) by (apply L; intuition congruence); lia
  | split; [rewrite app_length; lia|split; [intros a La _; apply ld_app, La|]];
    unfold priv, to_m, to_cart, to_kep, to_nu, to_E, to_Ma, to_cf, to_kf;
    cbn [In b_s a_o a_m a_cart a_kep a_nu a_E a_Ma a_cf a_kf];
    split; [intros a I; destruct (Nat.eq_dec a (length h)); [right; lia|left; intuition congruence]
           |first [left; reflexivity|right; apply le_n]] ].
Lemma sim_rb_m x : sim (rb_m x) (modify (with_m (fun _ => x))). Proof. rebind 0. Qed.
Lemma sim_rb_cart x : sim (rb_cart x) (modify (with_cart (fun _ => x))). Proof. rebind 2. Qed.
Lemma sim_rb_kep x : sim (rb_kep x) (modify (with_kep (fun _ => x))). Proof. rebind 3. Qed.
Lemma sim_rb_nu x : sim (rb_nu x) (modify (with_nu (fun _ => x))). Proof. rebind 4. Qed.
Lemma sim_rb_E x : sim (rb_E x) (modify (with_E (fun _ => x))). Proof. rebind 5. Qed.
Lemma sim_rb_Ma x : sim (rb_Ma x) (modify (with_Ma (fun _ => x))). Proof. rebind 6. Qed.
Lemma sim_rb_cf x : sim (rb_cf x) (modify (with_cf (fun _ => x))). Proof. rebind 7. Qed.
Lemma sim_rb_kf x : sim (rb_kf x) (modify (with_kf (fun _ => x))). Proof. rebind 8. Qed.
Ltac scal2 := intros b h b' h' r G E; injection E as <- <- <-; split; [reflexivity|split; [exact G|]];
  split; [apply le_n|split; [intros; reflexivity|split; [intros ? I; left; exact I|left; reflexivity]]].
Lemma sim_type t : sim (hset (with_type t)) (modify (with_type t)). Proof. scal2. Qed.
Lemma sim_it t : sim (hset (with_it t)) (modify (with_it t)). Proof. scal2. Qed.
Lemma sim_flags a d k c : sim (hset (with_flags a d k c)) (modify (with_flags a d k c)). Proof. scal2. Qed.
(** references *)
Lemma simr_new {A} (enc : A -> arg F) x : simr enc (hnew (CA (enc x))) (ret x).
Proof.
  intros b h b' h' r G E. injection E as <- <- <-. split; [apply good_app, G|]. split; [apply ext_app|].
  exists x. rewrite view_app by exact G. split; [reflexivity|]. split; [apply ld_new|].
  rewrite app_length. cbn [length]. split; [lia|]. intros I. destruct G as [_ L]. specialize (L _ I). lia.
Qed.
Lemma simr_bind {A B} (enc : B -> arg F) (hm : HM A) m hf f :
  sim hm m -> (forall x, simr enc (hf x) (f x)) -> simr enc (hbind hm hf) (bind m f).
Proof.
  intros S1 S2 b h b' h' r G E. unfold hbind in E. destruct (hm (b, h)) as [[b1 h1] [x|e]] eqn:E1.
  - destruct (S1 _ _ _ _ _ G E1) as (V1 & G1 & X1). destruct (S2 x _ _ _ _ _ G1 E) as (G2 & X2 & V2).
    split; [exact G2|]. split; [eapply ext_trans; eassumption|]. unfold bind. rewrite V1.
    destruct r as [a|e]; [|exact V2]. destruct V2 as (y & V2 & Hy & La & Na).
    exists y. destruct X1 as [L1 _]. repeat split; try assumption; lia.
  - destruct (S1 _ _ _ _ _ G E1) as (V1 & G1 & X1). injection E as <- <- <-.
    unfold bind. rewrite V1. auto.
Qed.
Lemma simr_map {A} (enc : A -> arg F) hm m :
  simr enc hm m -> simr (fun x => x) hm (bind m (fun x => ret (enc x))).
Proof.
  intros S1 b h b' h' r G E. destruct (S1 _ _ _ _ _ G E) as (G1 & X1 & V1). split; [exact G1|]. split; [exact X1|].
  unfold bind. destruct r as [a|e].
  - destruct V1 as (x & V1 & Hx & La & Na). exists (enc x). rewrite V1. repeat split; try assumption; lia.
  - rewrite V1. reflexivity.
Qed.
Lemma sim_deref {A} (enc : A -> arg F) hm m :
  simr enc hm m -> sim (deref hm) (bind m (fun x => ret (enc x))).
Proof.
  intros S1 b h b' h' r G E. unfold deref, hbind in E. destruct (hm (b, h)) as [[b1 h1] [a|e]] eqn:E1.
  - destruct (S1 _ _ _ _ _ G E1) as (G1 & X1 & x & V1 & Hx & La & Na). injection E as <- <- <-.
    unfold bind. rewrite V1. cbn [snd]. rewrite Hx. auto.
  - destruct (S1 _ _ _ _ _ G E1) as (G1 & X1 & V1). injection E as <- <- <-. unfold bind. rewrite V1. auto.
Qed.
Lemma sim_deref_id hm m : simr (fun x => x) hm m -> sim (deref hm) m.
Proof.
  intros S1 b h b' h' r G E. destruct (sim_deref _ _ _ S1 _ _ _ _ _ G E) as (V & G1 & X1).
  split; [|auto]. rewrite <- V. unfold bind, ret. destruct (m (view b h)) as [s [x|e]]; reflexivity.
Qed.
Lemma sim_rd1 hm m : simr flat1 hm m -> sim (rd1 hm) m.
Proof.
  intros S1. unfold rd1. intros b h b' h' r G E.
  assert (S2 : sim (hbind (deref hm) (fun x => hret (adata x)))
                   (bind (bind m (fun x => ret (flat1 x))) (fun x => ret (adata x)))).
  { apply sim_bind; [apply (sim_deref flat1), S1|intros x; apply sim_ret]. }
  destruct (S2 _ _ _ _ _ G E) as (V & G1 & X1). split; [|auto]. rewrite <- V.
  unfold bind, ret. destruct (m (view b h)) as [s [x|e]]; reflexivity.
Qed.
(** a reference that is dropped *)
Lemma sim_void {A} (enc : A -> arg F) hm m : simr enc hm m -> sim (hvoid hm) (void m).
Proof.
  intros S1 b h b' h' r G E. unfold hvoid, hbind in E. destruct (hm (b, h)) as [[b1 h1] [a|e]] eqn:E1.
  - destruct (S1 _ _ _ _ _ G E1) as (G1 & X1 & x & V1 & _). injection E as <- <- <-. unfold void, bind. rewrite V1. auto.
  - destruct (S1 _ _ _ _ _ G E1) as (G1 & X1 & V1). injection E as <- <- <-. unfold void, bind. rewrite V1. auto.
Qed.
(** a copy of something the object holds, read at once *)
Lemma sim_read {B} (g : orb -> list F) (K : list F -> orb -> HM B) (k : orb -> M B) :
  (forall s, sim (K (g s) s) (k s)) ->
  sim (hbind (rd1 (hbind hget (fun s => hnew (arr1 (g s))))) (fun row => hbind hget (K row))) (bind get k).
Proof.
  intros S1 b h b' h' r G E. unfold rd1, deref, hbind, hget, hnew, hret in E. cbn [fst snd] in E.
  rewrite view_app in E by exact G. rewrite ld_new in E. cbn [arr1 cA adata NP.fresh] in E.
  destruct (S1 (view b h) _ _ _ _ _ (good_app _ _ _ G) E) as (V & G1 & X1).
  rewrite view_app in V by exact G. split; [exact V|]. split; [exact G1|].
  eapply ext_trans; [apply ext_app|exact X1].
Qed.

Lemma sim_ext {A} (hm : HM A) m m' : (forall s, m s = m' s) -> sim hm m -> sim hm m'.
Proof. intros E S b h b' h' r G X. rewrite <- E. exact (S b h b' h' r G X). Qed.

Create HintDb heap discriminated.
Hint Resolve sim_ret sim_raise sim_lift sim_get sim_w_m sim_w_cart sim_w_kep sim_w_nu sim_w_E sim_w_Ma sim_w_cf
  sim_w_kf sim_rb_m sim_rb_cart sim_rb_kep sim_rb_nu sim_rb_E sim_rb_Ma sim_rb_cf sim_rb_kf
  sim_type sim_it sim_flags : heap.
Lemma simr_new1 l : simr flat1 (hnew (arr1 l)) (ret l).
Proof. exact (simr_new flat1 l). Qed.
Hint Resolve simr_new1 : heap.
(** the prover: follows the common structure of the two bodies *)
Ltac leaf := solve [auto 2 with heap nocore].
Ltac go := intros; cbv beta zeta;
  first
  [ leaf
  | apply simr_new
  | lazymatch goal with
    | |- sim (hbind _ _) (bind _ _) => apply sim_bind; [go|intro; go]
    | |- simr _ (hbind _ _) (bind _ _) => apply simr_bind; [go|intro; go]
    | |- sim (rd1 _) _ => apply sim_rd1; go
    | |- sim (deref _) _ => apply sim_deref_id; go
    | |- sim (if ?c then _ else _) _ => destruct c; go
    | |- simr _ (if ?c then _ else _) _ => destruct c; go
    | |- sim (match ?c with _ => _ end) _ => destruct c; go
    | |- simr _ (match ?c with _ => _ end) _ => destruct c; go
    | |- sim (let '(_, _) := ?c in _) _ => destruct c; go
    end ].

Lemma sim_calculate_kepler_f f : forall inds, sim (h_calculate_kepler_f gb f inds) (calculate_kepler_f gb f inds).
Proof.
  induction f as [|f IH]; intros inds; cbn [h_calculate_kepler_f calculate_kepler_f]; [leaf|].
  apply sim_bind; [leaf|intros s]. apply sim_bind; [leaf|intros ps]. cbv zeta.
  destruct (negb (any (do_mask (ocart s) ps))); [leaf|].
  apply sim_bind; [leaf|intros _]. apply sim_bind; [leaf|intros sb]. apply sim_bind; [leaf|intros k].
  apply sim_bind; [leaf|intros _].
  assert (C : forall fn : arg F -> arg F -> bool -> res (arg F), sim
    (hbind hget (fun st1 => hbind (if oauto st1 && negb (odirect st1)
       then h_calculate_kepler_f gb f (IMask (map negb (okf st1))) else hret tt)
     (fun _ => hbind (rd1 (hbind hget (fun st2 => hnew (arr1 (map (@NP.s1 F) (okep st2))))))
     (fun row => hbind hget (fun st2 => hbind (hlift (fn
        (fresh [length (mget (do_mask (ocart s) ps) (map s5 (okep st1)))] (mget (do_mask (ocart s) ps) (map s5 (okep st1))))
        (fresh [length (mget (do_mask (ocart s) ps) row)] (mget (do_mask (ocart s) ps) row)) (odeg st2)))
      (fun x => w_kep (fun kep => map2 set5 kep (mset (do_mask (ocart s) ps) (adata x) (map s5 kep)))))))))
    (bind get (fun st1 => bind (if oauto st1 && negb (odirect st1)
       then calculate_kepler_f gb f (IMask (map negb (okf st1))) else ret tt)
     (fun _ => bind get (fun st2 => bind (lift (fn
        (fresh [length (mget (do_mask (ocart s) ps) (map s5 (okep st1)))] (mget (do_mask (ocart s) ps) (map s5 (okep st1))))
        (fresh [length (mget (do_mask (ocart s) ps) (map (@NP.s1 F) (okep st2)))]
           (mget (do_mask (ocart s) ps) (map (@NP.s1 F) (okep st2)))) (odeg st2)))
      (fun x => modify (with_kep (fun kep => map2 set5 kep (mset (do_mask (ocart s) ps) (adata x) (map s5 kep)))))))))).
  { intros fn. apply sim_bind; [leaf|intros st1]. apply sim_bind; [destruct (_ && _); [apply IH|leaf]|intros _].
    apply (sim_read (fun st2 => map (@NP.s1 F) (okep st2))).
    intros st2. apply sim_bind; [leaf|intros x; leaf]. }
  destruct (otype sb); [leaf|apply C|apply C].
Qed.
Lemma sim_calculate_kepler inds : sim (h_calculate_kepler gb inds) (calculate_kepler gb inds).
Proof. apply sim_calculate_kepler_f. Qed.
Hint Resolve sim_calculate_kepler : heap.
Lemma sim_kep_check : sim (h_kep_check gb) (kep_check gb).
Proof. unfold h_kep_check, kep_check. go. Qed.
Hint Resolve sim_kep_check : heap.
Lemma simr_kep_row k : simr flat1 (h_get_kep_row gb k) (get_kep_row gb k).
Proof. unfold h_get_kep_row, get_kep_row. go. Qed.
Hint Resolve simr_kep_row : heap.
Lemma sim_anom : sim (h_anom gb) (get_anom gb). Proof. apply sim_rd1, simr_kep_row. Qed.
Lemma sim_e : sim (h_e gb) (get_e gb). Proof. apply sim_rd1, simr_kep_row. Qed.
Hint Resolve sim_anom sim_e : heap.
Lemma sim_calc_true inds : sim (h_calc_true_anomaly gb inds) (calc_true_anomaly gb inds).
Proof. unfold h_calc_true_anomaly, calc_true_anomaly. go. Qed.
Lemma sim_calc_mean inds : sim (h_calc_mean_anomaly gb inds) (calc_mean_anomaly gb inds).
Proof. unfold h_calc_mean_anomaly, calc_mean_anomaly. go. Qed.
Lemma sim_calc_ecc inds : sim (h_calc_eccentric_anomaly gb inds) (calc_eccentric_anomaly gb inds).
Proof. unfold h_calc_eccentric_anomaly, calc_eccentric_anomaly. go. Qed.
Hint Resolve sim_calc_true sim_calc_mean sim_calc_ecc : heap.
Lemma sim_calculate_cartesian inds : sim (h_calculate_cartesian gb inds) (calculate_cartesian gb inds).
Proof. unfold h_calculate_cartesian, calculate_cartesian. go. Qed.
Hint Resolve sim_calculate_cartesian : heap.
Lemma sim_cart_check : sim (h_cart_check gb) (cart_check gb).
Proof. unfold h_cart_check, cart_check. go. Qed.
Hint Resolve sim_cart_check : heap.
(** getters *)
Lemma simr_cartesian : simr flat6 (h_get_cartesian gb) (get_cartesian gb).
Proof. unfold h_get_cartesian, get_cartesian. go. Qed.
Lemma simr_kepler : simr flat6 (h_get_kepler gb) (get_kepler gb).
Proof. unfold h_get_kepler, get_kepler. go. Qed.
Lemma simr_cart_row k : simr flat1 (h_get_cart_row gb k) (get_cart_row gb k).
Proof. unfold h_get_cart_row, get_cart_row. go. Qed.
Lemma simr_r : simr flat3 (h_get_r gb) (get_r gb).
Proof. unfold h_get_r, get_r. go. Qed.
Lemma simr_v : simr flat3 (h_get_v gb) (get_v gb).
Proof. unfold h_get_v, get_v. go. Qed.
Lemma simr_period : simr flat1 (h_get_period gb) (get_period gb).
Proof. unfold h_get_period, get_period. go. Qed.
Hint Resolve simr_cartesian simr_kepler simr_cart_row simr_r simr_v simr_period : heap.
Lemma simr_mean_motion : simr flat1 (h_get_mean_motion gb) (get_mean_motion gb).
Proof. unfold h_get_mean_motion, get_mean_motion. go. Qed.
Lemma simr_new_id x : simr (fun x => x) (hnew (CA x)) (ret x).
Proof. exact (simr_new (fun x : arg F => x) x). Qed.
Hint Resolve simr_new_id : heap.
Lemma simr_ecc : simr (fun x => x) (h_get_eccentric_anomaly gb) (get_eccentric_anomaly gb).
Proof.
  unfold h_get_eccentric_anomaly, get_eccentric_anomaly. apply simr_bind; [leaf|intros s].
  destruct (otype s); [go|apply (simr_map flat1), simr_kep_row|go].
Qed.
Lemma simr_true : simr flat1 (h_get_true_anomaly gb) (get_true_anomaly gb).
Proof. unfold h_get_true_anomaly, get_true_anomaly, get_anom. go. Qed.
Lemma simr_mean : simr flat1 (h_get_mean_anomaly gb) (get_mean_anomaly gb).
Proof. unfold h_get_mean_anomaly, get_mean_anomaly, get_anom. go. Qed.
Hint Resolve simr_mean_motion simr_ecc simr_true simr_mean : heap.
Lemma simr_apoapsis : simr flat1 (h_get_apoapsis gb) (get_apoapsis gb).
Proof. unfold h_get_apoapsis, get_apoapsis. go. Qed.
Lemma simr_periapsis : simr flat1 (h_get_periapsis gb) (get_periapsis gb).
Proof. unfold h_get_periapsis, get_periapsis. go. Qed.
Lemma simr_mean_longitude : simr flat1 (h_get_mean_longitude gb) (get_mean_longitude gb).
Proof. unfold h_get_mean_longitude, get_mean_longitude. go. Qed.
Lemma sim_v : sim (h_v gb) (get_v gb).
Proof.
  intros b h b' h' r G E. unfold h_v, h_get_v, hbind in E.
  destruct (h_cart_check gb (b, h)) as [[b1 h1] [[]|e]] eqn:E1;
    destruct (sim_cart_check _ _ _ _ _ G E1) as (V1 & G1 & X1).
  - unfold hget, hnew, hret in E. cbn [fst snd] in E. rewrite view_app in E by exact G1.
    injection E as <- <- <-. unfold get_v, bind, get, ret. rewrite V1, view_app by exact G1.
    split; [reflexivity|]. split; [apply good_app, G1|]. eapply ext_trans; [exact X1|apply ext_app].
  - injection E as <- <- <-. unfold get_v, bind. rewrite V1. auto.
Qed.
Hint Resolve sim_v simr_apoapsis simr_periapsis simr_mean_longitude : heap.
Lemma simr_velocity : simr flat1 (h_get_velocity gb) (get_velocity gb).
Proof. unfold h_get_velocity, get_velocity. go. Qed.
Lemma simr_speed : simr flat1 (h_get_speed gb) (get_speed gb).
Proof. unfold h_get_speed, get_speed. go. Qed.
Hint Resolve simr_velocity simr_speed : heap.
Lemma simr_equinoctial : simr flatk (h_get_equinoctial gb) (get_equinoctial gb).
Proof.
  intros b h b' h' r G E. unfold h_get_equinoctial, hbind in E.
  destruct (h_get_kepler gb (b, h)) as [[b1 h1] [k|e]] eqn:E1;
    destruct (simr_kepler _ _ _ _ _ G E1) as (G1 & X1 & V1).
  2:{ injection E as <- <- <-. unfold get_equinoctial, bind. rewrite V1. auto. }
  destruct V1 as (kep & V1 & Hk & Lk & Nk). cbn [hget hret fst snd] in E.
  assert (Ek : okep (view b1 h1) = kep).
  { clear -V1. unfold get_kepler, bind, get, ret in V1. destruct (kep_check gb (view b h)) as [s [x|e]]; congruence. }
  rewrite Ek in E.
  destruct (rd1 (h_get_mean_anomaly gb) (b1, h1)) as [[b2 h2] [m|e]] eqn:E2;
    destruct (sim_rd1 _ _ simr_mean _ _ _ _ _ G1 E2) as (V2 & G2 & X2).
  2:{ injection E as <- <- <-. unfold get_equinoctial, bind. rewrite V1, V2.
      split; [exact G2|]. split; [eapply ext_trans; eassumption|reflexivity]. }
  assert (N2 : ~ In k (owned b2)).
  { intros I. destruct (ext_owned _ _ _ _ _ X2 I); [contradiction|lia]. }
  set (h3 := upd_nth k (CA (flat6 (map2 set5 kep m))) h2) in E.
  assert (W3 : view b2 h3 = view b2 h2).
  { unfold h3, view. rewrite !ld_upd_other; [reflexivity|..]; intros ->; apply N2; unfold owned, priv; cbn [In]; tauto. }
  assert (G3 : good b2 h3) by (apply good_upd, G2).
  assert (X3 : ext b h b2 h3).
  { pose proof (ext_trans _ _ _ _ _ _ X1 X2) as (La & U & P & Q). repeat split; try assumption.
    - unfold h3. rewrite upd_len. exact La.
    - intros a Ha Na. unfold h3. rewrite ld_upd_other by lia. apply U; assumption. }
  cbn [fst snd] in E. rewrite W3 in E. cbv zeta in E.
  assert (Hfin : exists e, (hnew (CA (flatk e)) (b2, h3) = (b', h', r)) /\ get_equinoctial gb (view b h) = (view b2 h2, Ok e)).
  { unfold get_equinoctial, bind, get, ret. rewrite V1, V2.
    destruct (kep_to_equi_cols (odeg (view b2 h2)) (map2 set5 kep m)) as [|c [|c' t]]; eexists; split; try exact E; reflexivity. }
  destruct Hfin as (e & E3 & V3). injection E3 as <- <- <-.
  split; [apply good_app, G3|]. split; [eapply ext_trans; [exact X3|apply ext_app]|].
  exists e. rewrite view_app by exact G3. rewrite W3. split; [exact V3|]. split; [apply ld_new|].
  destruct X3 as [L3 _]. rewrite app_length. cbn [length]. split; [lia|].
  intros I. destruct G3 as [_ L]. specialize (L _ I). lia.
Qed.
Hint Resolve simr_equinoctial : heap.
(** setters *)
Lemma sim_set_cart_row k v : sim (h_set_cart_row gb k v) (set_cart_row gb k v).
Proof. unfold h_set_cart_row, set_cart_row. go. Qed.
Lemma sim_set_kep_row k v : sim (h_set_kep_row gb k v) (set_kep_row gb k v).
Proof. unfold h_set_kep_row, set_kep_row. go. Qed.
Lemma sim_set_anom v : sim (h_set_anom gb v) (set_anom gb v). Proof. apply sim_set_kep_row. Qed.
Lemma sim_after_cart : sim (h_after_cart gb) (after_cart gb). Proof. unfold h_after_cart, after_cart. go. Qed.
Lemma sim_after_kep : sim (h_after_kep gb) (after_kep gb). Proof. unfold h_after_kep, after_kep. go. Qed.
Lemma sim_after_anom : sim (h_after_anom gb) (after_anom gb). Proof. unfold h_after_anom, after_anom. go. Qed.
Hint Resolve sim_set_cart_row sim_set_kep_row sim_set_anom sim_after_cart sim_after_kep sim_after_anom : heap.
Lemma sim_set_r v : sim (h_set_r gb v) (set_r gb v). Proof. unfold h_set_r, set_r. go. Qed.
Lemma sim_set_v v : sim (h_set_v gb v) (set_v gb v). Proof. unfold h_set_v, set_v. go. Qed.
Lemma sim_set_cartesian v : sim (h_set_cartesian gb v) (set_cartesian gb v).
Proof. unfold h_set_cartesian, set_cartesian. go. Qed.
Lemma sim_set_kepler v : sim (h_set_kepler gb v) (set_kepler gb v).
Proof. unfold h_set_kepler, set_kepler. go. Qed.
Lemma sim_set_ecc v : sim (h_set_eccentric_anomaly gb v) (set_eccentric_anomaly gb v).
Proof. unfold h_set_eccentric_anomaly, set_eccentric_anomaly. go. Qed.
Lemma sim_set_true v : sim (h_set_true_anomaly gb v) (set_true_anomaly gb v).
Proof. unfold h_set_true_anomaly, set_true_anomaly. go. Qed.
Lemma sim_set_mean v : sim (h_set_mean_anomaly gb v) (set_mean_anomaly gb v).
Proof. unfold h_set_mean_anomaly, set_mean_anomaly. go. Qed.
Hint Resolve sim_set_r sim_set_v sim_set_cartesian sim_set_kepler sim_set_ecc sim_set_true sim_set_mean : heap.
Lemma sim_set_mean_motion v : sim (h_set_mean_motion gb v) (set_mean_motion gb v).
Proof. unfold h_set_mean_motion, set_mean_motion, h_set_period, set_period. go. Qed.
Lemma sim_set_equinoctial v : sim (h_set_equinoctial gb v) (set_equinoctial gb v).
Proof. unfold h_set_equinoctial, set_equinoctial. go. Qed.
Lemma sim_set_velocity v : sim (h_set_velocity gb v) (set_velocity gb v).
Proof. unfold h_set_velocity, set_velocity. go. Qed.
Lemma sim_set_type v : sim (h_set_type gb v) (set_type gb v).
Proof. unfold h_set_type, set_type. go. Qed.
Lemma sim_propagate v : sim (h_propagate gb v) (propagate gb v).
Proof. unfold h_propagate, propagate. go. Qed.
Lemma sim_delete i : sim (h_delete i) (delete i).
Proof. unfold h_delete, delete. go. Qed.
Lemma sim_allocate n : sim (h_allocate n) (allocate n).
Proof.
  apply (sim_ext _
    (bind (modify (with_m (fun _ => repeat (lit 0) n))) (fun _ => bind (modify (with_cart (fun _ => repeat nan6c n))) (fun _ =>
     bind (modify (with_kep (fun _ => repeat nan6c n))) (fun _ => bind (modify (with_nu (fun _ => repeat nan n))) (fun _ =>
     bind (modify (with_E (fun _ => fresh [n] (repeat nan n)))) (fun _ => bind (modify (with_Ma (fun _ => repeat nan n))) (fun _ =>
     bind (modify (with_cf (fun _ => repeat false n))) (fun _ => modify (with_kf (fun _ => repeat false n)))))))))));
    [intros s; reflexivity|]. unfold h_allocate. go.
Qed.
Lemma sim_mark_cart i : sim (h_mark_cart gb i) (mark_cart gb i). Proof. unfold h_mark_cart, mark_cart. go. Qed.
Lemma sim_mark_kep i : sim (h_mark_kep gb i) (mark_kep gb i). Proof. unfold h_mark_kep, mark_kep. go. Qed.
Hint Resolve sim_set_mean_motion sim_set_equinoctial sim_set_velocity sim_set_type sim_propagate sim_delete
  sim_allocate sim_mark_cart sim_mark_kep : heap.
Lemma sim_keys_cart ks i :
  sim (hbind hget (fun s => let '(cs, r) := assign_keys ks (ocart s) i in
                            hbind (w_cart (fun _ => cs)) (fun _ => hlift r)))
      (fun s => let '(cs, r) := assign_keys ks (ocart s) i in (with_cart (fun _ => cs) s, r)).
Proof.
  apply (sim_ext _ (bind get (fun s => let '(cs, r) := assign_keys ks (ocart s) i in
                            bind (modify (with_cart (fun _ => cs))) (fun _ => lift r)))).
  - intros s. unfold bind, get. destruct (assign_keys ks (ocart s) i) as [cs r]. reflexivity.
  - apply sim_bind; [leaf|intros s]. destruct (assign_keys ks (ocart s) i) as [cs r].
    apply sim_bind; [leaf|intros _; leaf].
Qed.
Lemma sim_keys_kep ks i :
  sim (hbind hget (fun s => let '(cs, r) := assign_keys ks (okep s) i in
                            hbind (w_kep (fun _ => cs)) (fun _ => hlift r)))
      (fun s => let '(cs, r) := assign_keys ks (okep s) i in (with_kep (fun _ => cs) s, r)).
Proof.
  apply (sim_ext _ (bind get (fun s => let '(cs, r) := assign_keys ks (okep s) i in
                            bind (modify (with_kep (fun _ => cs))) (fun _ => lift r)))).
  - intros s. unfold bind, get. destruct (assign_keys ks (okep s) i) as [cs r]. reflexivity.
  - apply sim_bind; [leaf|intros s]. destruct (assign_keys ks (okep s) i) as [cs r].
    apply sim_bind; [leaf|intros _; leaf].
Qed.
Hint Resolve sim_keys_cart sim_keys_kep : heap.
Lemma sim_update i kw : sim (h_update gb i kw) (update gb i kw).
Proof. unfold h_update, update. go. Qed.
Hint Resolve sim_update : heap.
Lemma sim_add n kw : sim (h_add_orbits gb n kw) (add_orbits gb n kw).
Proof.
  set (g := fun s : orb =>
    bind (modify (with_m (fun _ => om s ++ repeat (lit 0) n))) (fun _ =>
    bind (modify (with_cart (fun _ => ocart s ++ repeat nan6c n))) (fun _ =>
    bind (modify (with_kep (fun _ => okep s ++ repeat nan6c n))) (fun _ =>
    bind (modify (with_nu (fun _ => onu s ++ repeat nan n))) (fun _ =>
    bind (match oE s with
          | Sc _ => raise ValueError
          | Arr _ _ d => modify (with_E (fun _ => fresh [length d + n]%nat (d ++ repeat nan n)))
          end) (fun _ =>
    bind (modify (with_Ma (fun _ => oMa s ++ repeat nan n))) (fun _ =>
    bind (modify (with_cf (fun _ => ocf s ++ repeat false n))) (fun _ =>
    bind (modify (with_kf (fun _ => okf s ++ repeat false n))) (fun _ =>
    bind (match kw_m kw with
          | None => ret tt
          | Some v => bind get (fun s' => bind (lift (assign (om s') (IRange (num s) (num s + n)) v)) (fun row =>
                      modify (with_m (fun _ => row))))
          end) (fun _ => update gb (IRange (num s) (num s + n)) (drop_m kw))))))))))).
  apply (sim_ext _ (bind get g)).
  - intros s. unfold add_orbits, g, bind, get, modify, raise, num.
    destruct s as [z1 z2 z3 z4 z5 z6 z7 z8 z9 y1 y2 y3 y4 x y5 y6 y7 y8]. destruct x as [y|sh me d];
      cbv beta iota delta [with_m with_cart with_kep with_nu with_E with_Ma with_cf with_kf
           oM0 oG oauto odirect okro ocro odeg otype oopts om ocart okep onu oE oMa ocf okf oit]; reflexivity.
  - unfold h_add_orbits, g. go.
Qed.
Lemma sim_set_m i v : sim (h_set_m i v) (set_m i v).
Proof. unfold h_set_m, set_m. go. Qed.
Hint Resolve sim_add sim_set_m : heap.

(** ** Construction, indexing, iteration *)
Definition grown (h h' : heap) : Prop := length h <= length h' /\ forall a, a < length h -> ld h' a = ld h a.
(** an object all of whose cells were allocated after [h] *)
Definition newobj (h h' : heap) (t : obj) : Prop := good t h' /\ forall a, In a (owned t) -> length h <= a.
Lemma grown_app h t : grown h (h ++ t).
Proof. split; [rewrite app_length; lia|intros a L; apply ld_app, L]. Qed.
Lemma grown_trans h1 h2 h3 : grown h1 h2 -> grown h2 h3 -> grown h1 h3.
Proof. intros [L1 U1] [L2 U2]. split; [lia|]. intros a L. rewrite U2, U1; [reflexivity|exact L|lia]. Qed.
Lemma view_grown b h h' : good b h -> grown h h' -> view b h' = view b h.
Proof.
  intros [_ L] [_ U]. unfold view. rewrite !U by (apply L; unfold owned, priv; cbn [In]; tauto). reflexivity.
Qed.
Lemma good_grown b h h' : good b h -> grown h h' -> good b h'.
Proof. intros [N L] [G _]. split; [exact N|]. intros a I. specialize (L a I). lia. Qed.
Lemma ext_new b h b' h' h0 : newobj h0 h b -> ext b h b' h' -> good b' h' -> grown h0 h ->
  newobj h0 h' b' /\ grown h0 h'.
Proof.
  intros [G N] X G' [L0 U0]. split.
  - split; [exact G'|]. intros a I. destruct (ext_owned _ _ _ _ _ X I) as [J|J]; [exact (N a J)|lia].
  - destruct X as (L & U & _). split; [lia|]. intros a La. rewrite U, U0; [reflexivity|exact La|lia|].
    intros I. specialize (N a I). lia.
Qed.
Lemma blank_new s o (h : heap) b h' : h_blank s o h = (b, h') -> newobj h h' b /\ grown h h'.
Proof.
  intros E. injection E as <- <-. split; [|apply grown_app]. split; [split|].
  - unfold owned, priv. cbn [a_o a_m a_cart a_kep a_nu a_E a_Ma a_cf a_kf].
    repeat (apply NoDup_cons_iff; split; [cbn [In]; clear; lia|]). apply NoDup_nil.
  - unfold owned, priv. cbn [In a_o a_m a_cart a_kep a_nu a_E a_Ma a_cf a_kf]. intros a I.
    rewrite app_length. cbn [length]. lia.
  - unfold owned, priv. cbn [In a_o a_m a_cart a_kep a_nu a_E a_Ma a_cf a_kf]. intros a I. lia.
Qed.
Lemma ld_k (h t : heap) k : ld (h ++ t) (length h + k) = nth k t (CB []).
Proof. unfold ld. rewrite app_nth2 by lia. f_equal. lia. Qed.
Lemma blank_view s o (h : heap) b h' : h_blank s o h = (b, h') ->
  view b h' = mkorb (oM0 s) (oG s) (oauto s) (odirect s) (okro s) (ocro s) (odeg s) (otype s) o
                    [] [] [] [] (fresh [0] []) [] [] [] (oit s).
Proof.
  intros E. injection E as <- <-. unfold view. cbn [b_s a_o a_m a_cart a_kep a_nu a_E a_Ma a_cf a_kf].
  rewrite !ld_k. rewrite ld_new. reflexivity.
Qed.
Lemma h_init_spec M0 c kw h h' r : h_init gb M0 c kw h = (h', r) ->
  grown h h' /\
  match r with
  | Ok b => init gb M0 c kw = Ok (view b h') /\ newobj h h' b
  | Raise e => init gb M0 c kw = Raise e
  end.
Proof.
  unfold h_init, init. destruct (anomaly_of (cf_type c)) as [t|].
  2:{ intros E. injection E as <- <-. split; [split; [lia|auto]|reflexivity]. }
  cbv zeta. intros E.
  match type of E with (match ?body (h_blank ?s ?o h) with _ => _ end) = _ =>
    set (hb := body) in E; destruct (h_blank s o h) as [b0 h0] eqn:EB end.
  assert (S1 : sim hb (bind (allocate (cf_num c)) (fun _ =>
                       bind (match kw_m kw with None => ret tt | Some v => set_m IAll v end) (fun _ =>
                       bind (if Nat.eqb (cf_num c) 0 then ret tt else update gb IAll (drop_m kw)) (fun _ =>
                       modify (with_flags (cf_auto c) (cf_direct c) (cf_kro c) (cf_cro c))))))) by (unfold hb; go).
  destruct (blank_new _ _ _ _ _ EB) as [N0 Gr0]. apply blank_view in EB.
  cbn [oM0 oG oauto odirect okro ocro odeg otype oopts om ocart okep onu oE oMa ocf okf oit] in EB.
  destruct (hb (b0, h0)) as [[b1 h1] r1] eqn:E1. destruct (S1 _ _ _ _ _ (proj1 N0) E1) as (V1 & G1 & X1).
  destruct (ext_new _ _ _ _ _ N0 X1 G1 Gr0) as [N1 Gr1]. rewrite EB in V1. clear S1 E1 hb EB.
  unfold bind in V1 |- *.
  destruct (allocate (cf_num c) _) as [sa [xa|ea]]; [|destruct r1; [discriminate|]; injection E as <- <-; split; [exact Gr1|congruence]].
  destruct ((match kw_m kw with None => ret tt | Some v => set_m IAll v end) sa) as [sb [xb|eb]];
    [|destruct r1; [discriminate|]; injection E as <- <-; split; [exact Gr1|congruence]].
  destruct ((if Nat.eqb (cf_num c) 0 then ret tt else update gb IAll (drop_m kw)) sb) as [sc [xc|ec]];
    [|destruct r1; [discriminate|]; injection E as <- <-; split; [exact Gr1|congruence]].
  unfold modify in V1. destruct r1 as [x|e]; [|discriminate]. injection E as <- <-. split; [exact Gr1|].
  split; [congruence|exact N1].
Qed.
Lemma init_blank M0 G o d t (m : list F) :
  init gb M0 (mkconfig true true G o d (anom_name t) (length m) false false)
       (mkkws None None (Some (flat1 m)) no6 no6)
  = Ok (mkorb M0 G true true false false d t o m (repeat nan6c (length m)) (repeat nan6c (length m))
          (repeat nan (length m)) (fresh [length m] (repeat nan (length m))) (repeat nan (length m))
          (repeat false (length m)) (repeat false (length m)) None).
Proof.
  unfold init. cbn [cf_auto cf_direct cf_G cf_opts cf_deg cf_type cf_num cf_kro cf_cro kw_m].
  replace (anomaly_of (anom_name t)) with (Some t) by (destruct t; reflexivity).
  unfold bind, allocate, modify. cbn [oM0 oG oauto odirect okro ocro odeg otype oopts oit].
  unfold set_m, bind, get, lift, assign, modify. cbn [om]. rewrite repeat_length.
  cbn [resolve resolve_gen rbind].
  assert (EB : bcast1 (length (seq 0 (length m))) (flat1 m) = Ok m).
  { rewrite seq_length. unfold flat1, bcast1, fresh. destruct m as [|x [|y m]]; [reflexivity|reflexivity|].
    cbn [strip_ones length]. rewrite Nat.eqb_refl. reflexivity. }
  unfold resolve, resolve_gen. rewrite EB.
  assert (EP : put (seq 0 (length m)) m (repeat (lit 0) (length m)) = m).
  { clear EB. enough (K : forall pre, put (seq (length pre) (length m)) m (pre ++ repeat (lit 0) (length m)) = pre ++ m).
    { exact (K []). }
    induction m as [|x m IH]; intros pre; [cbn; rewrite app_nil_r; reflexivity|].
    cbn [length seq repeat put].
    assert (U : forall p t z, upd_nth (length p) x (p ++ z :: t) = p ++ x :: t).
    { clear. intros p t z. induction p as [|y p IH]; cbn; [reflexivity|rewrite IH; reflexivity]. }
    rewrite U. specialize (IH (pre ++ [x])). rewrite app_length in IH. cbn [length] in IH.
    rewrite Nat.add_1_r in IH. rewrite <- !app_assoc in IH. cbn [app] in IH. exact IH. }
  unfold rbind. rewrite EP. clear EB EP. destruct (Nat.eqb (length m) 0); reflexivity.
Qed.
Lemma h_getitem_spec i b h h' r : good b h -> h_getitem gb i b h = (h', r) ->
  grown h h' /\
  match r with
  | Ok t => getitem i (view b h) = Ok (view t h') /\ newobj h h' t
  | Raise e => getitem i (view b h) = Raise e
  end.
Proof.
  intros G. unfold h_getitem, getitem. cbv zeta. set (s := view b h).
  destruct (resolve (length (om s)) i) as [ps|e].
  2:{ intros E. injection E as <- <-. split; [split; [lia|auto]|reflexivity]. }
  cbn [rbind]. set (m := pick ps (om s)). intros E.
  destruct (h_init gb (oM0 s) _ _ (h ++ [arr1 m])) as [h1 [t1|e]] eqn:E1;
    destruct (h_init_spec _ _ _ _ _ _ E1) as [Gr1 I1]; rewrite init_blank in I1; [|discriminate].
  destruct I1 as [V1 N1]. assert (Gr : grown h h1) by (eapply grown_trans; [apply grown_app|exact Gr1]).
  assert (N1' : newobj h h1 t1).
  { destruct N1 as [G1 L1]. split; [exact G1|]. intros a I. specialize (L1 a I). rewrite app_length in L1. lia. }
  match type of E with (match ?body (t1, h1) with _ => _ end) = _ => set (hb := body) in E end.
  assert (S1 : sim hb (bind (modify (with_flags (oauto s) (odirect s) (okro s) (ocro s))) (fun _ =>
                       bind (lift (resolve (length (okep s)) i)) (fun ps' =>
                       bind (modify (with_cart (fun _ => pick ps' (ocart s)))) (fun _ =>
                       modify (with_kep (fun _ => pick ps' (okep s)))))))) by (unfold hb; go).
  destruct (hb (t1, h1)) as [[b2 h2] r2] eqn:E2. destruct (S1 _ _ _ _ _ (proj1 N1') E2) as (V2 & G2 & X2).
  destruct (ext_new _ _ _ _ _ N1' X2 G2 Gr) as [N2 Gr2]. clear S1 E2 hb.
  apply (f_equal (fun r => match r with Ok x => x | Raise _ => view t1 h1 end)) in V1. cbv beta iota in V1.
  rewrite <- V1 in V2. unfold bind, modify, lift in V2.
  destruct (resolve (length (okep s)) i) as [ps'|e]; cbn [rbind].
  - destruct r2 as [x|e]; [|discriminate]. injection E as <- <-. split; [exact Gr2|]. split; [|exact N2].
    apply (f_equal fst) in V2. cbn [fst] in V2. rewrite <- V2. reflexivity.
  - destruct r2 as [x|e']; [discriminate|]. injection E as <- <-. split; [exact Gr2|]. congruence.
Qed.
Lemma h_next_spec b h b' h' r : good b h -> h_next gb (b, h) = ((b', h'), r) ->
  good b' h' /\ ext b h b' h' /\ owned b' = owned b /\
  match r with
  | Ok t => next (view b h) = (view b' h', Ok (view t h')) /\ newobj h h' t
  | Raise e => next (view b h) = (view b' h', Raise e)
  end.
Proof.
  intros G E. unfold h_next, next, hbind, bind, hget, get in *. cbn [fst snd] in E.
  destruct (oit (view b h)) as [k|].
  2:{ injection E as <- <- <-. split; [exact G|]. split; [apply ext_refl|]. split; reflexivity. }
  destruct (Nat.ltb k (num (view b h))).
  2:{ injection E as <- <- <-. split; [exact G|]. split; [apply ext_refl|]. split; reflexivity. }
  destruct (hset (with_it (Some (S k))) (b, h)) as [[b1 h1] r1] eqn:E1.
  destruct (sim_it _ _ _ _ _ _ G E1) as (V1 & G1 & X1).
  assert (O1 : owned b1 = owned b /\ r1 = Ok tt) by (injection E1 as <- <- <-; split; reflexivity).
  destruct O1 as [O1 ->].
  destruct (h_getitem gb (IInt (Z.of_nat k)) b1 h1) as [h2 r2] eqn:E2.
  destruct (h_getitem_spec _ _ _ _ _ G1 E2) as [Gr2 I2]. injection E as <- <- <-.
  assert (h1 = h) by (injection E1 as <- <-; reflexivity). subst h1.
  unfold modify in V1. apply (f_equal fst) in V1. cbn [fst] in V1. unfold modify, lift. rewrite V1.
  rewrite (view_grown b1 h h2 G1 Gr2). split; [exact (good_grown _ _ _ G1 Gr2)|].
  split. { eapply ext_trans; [exact X1|]. destruct Gr2 as [L U]. repeat split; auto. }
  split; [exact O1|]. destruct r2 as [t|e]; [destruct I2 as [-> N2]|rewrite I2]; auto.
Qed.
Lemma sim_next : sim (hvoid (h_next gb)) (void next).
Proof.
  intros b h b' h' r G E. unfold hvoid, hbind in E. destruct (h_next gb (b, h)) as [[b1 h1] [t|e]] eqn:E1;
    destruct (h_next_spec _ _ _ _ _ G E1) as (G1 & X1 & _ & I1); injection E as <- <- <-; unfold void, bind.
  - destruct I1 as [-> _]. auto.
  - rewrite I1. auto.
Qed.

(** ** Every method *)
Theorem sim_run o : sim (h_run gb o) (run_op gb o).
Proof.
  destruct o; cbn [h_run run_op]; try leaf.
  - exact (sim_void _ _ _ simr_cartesian).
  - exact (sim_void _ _ _ simr_kepler).
  - exact (sim_void _ _ _ simr_true).
  - exact (sim_void _ _ _ simr_ecc).
  - exact (sim_void _ _ _ simr_mean).
  - exact (sim_void _ _ _ simr_period).
  - exact (sim_void _ _ _ simr_equinoctial).
  - exact (sim_void _ _ _ simr_velocity).
  - exact (sim_void _ _ _ simr_speed).
  - apply sim_raise.
  - apply sim_it.
  - apply sim_next.
Qed.
(** the value of a getter *)
Definition v_getter (g : getter) : M (arg F) :=
  let enc {A} (e : A -> arg F) (m : M A) := bind m (fun x => ret (e x)) in
  match g with
  | GR => enc flat3 (get_r gb) | GV => enc flat3 (get_v gb)
  | GCart => enc flat6 (get_cartesian gb) | GKep => enc flat6 (get_kepler gb)
  | GCartRow k => enc flat1 (get_cart_row gb k) | GKepRow k => enc flat1 (get_kep_row gb k)
  | GTrue => enc flat1 (get_true_anomaly gb) | GEcc => get_eccentric_anomaly gb
  | GMean => enc flat1 (get_mean_anomaly gb)
  | GPeriod => enc flat1 (get_period gb) | GMeanMotion => enc flat1 (get_mean_motion gb)
  | GApo => enc flat1 (get_apoapsis gb) | GPeri => enc flat1 (get_periapsis gb)
  | GMeanLon => enc flat1 (get_mean_longitude gb) | GEqui => enc flatk (get_equinoctial gb)
  | GVelocity => enc flat1 (get_velocity gb) | GSpeed => enc flat1 (get_speed gb)
  end.
Theorem simr_getter g : simr (fun x => x) (h_getter gb g) (v_getter g).
Proof.
  destruct g; cbn [h_getter v_getter].
  - exact (simr_map _ _ _ simr_r).
  - exact (simr_map _ _ _ simr_v).
  - exact (simr_map _ _ _ simr_cartesian).
  - exact (simr_map _ _ _ simr_kepler).
  - exact (simr_map _ _ _ (simr_cart_row k)).
  - exact (simr_map _ _ _ (simr_kep_row k)).
  - exact (simr_map _ _ _ simr_true).
  - exact simr_ecc.
  - exact (simr_map _ _ _ simr_mean).
  - exact (simr_map _ _ _ simr_period).
  - exact (simr_map _ _ _ simr_mean_motion).
  - exact (simr_map _ _ _ simr_apoapsis).
  - exact (simr_map _ _ _ simr_periapsis).
  - exact (simr_map _ _ _ simr_mean_longitude).
  - exact (simr_map _ _ _ simr_equinoctial).
  - exact (simr_map _ _ _ simr_velocity).
  - exact (simr_map _ _ _ simr_speed).
Qed.
End Sim.
