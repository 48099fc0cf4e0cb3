(** * C64: the mutual recursion of calculate_kepler, _kep_check and the property e ends.

    calculate_kepler reads self.e (orbit.py:493, 499), whose getter calls _kep_check, which calls
    calculate_kepler again.  The model bounds this recursion by a fuel of 3. *)
From Coq Require Import String List Bool Arith Lia ZArith QArith.
From Verif Require Import NP NPToyN KeplerModel ConvModel UnitModel OrbitModel Lists ConvCols ArraySpec
  PropsAnomaly OrbitLists OrbitBase OrbitOps OrbitSpec PropsOrbitWidth PropsOrbitDirect PropsOrbitLazy.
Import ListNotations.
Local Open Scope nat_scope.

Section Rec.
Context {F : Type} `{NP F}.
Variable gb : nat -> nat -> F.
Notation orb := (orb F).

Definition leM {A} (m m' : OrbitModel.M (F := F) A) : Prop := forall s s' a, m s = (s', Ok a) -> m' s = (s', Ok a).
Lemma leM_refl {A} (m : OrbitModel.M (F := F) A) : leM m m. Proof. now intros s s' a. Qed.
Lemma leM_bind {A B} (m m' : OrbitModel.M (F := F) A) (k k' : A -> OrbitModel.M (F := F) B) :
  leM m m' -> (forall a, leM (k a) (k' a)) -> leM (bind m k) (bind m' k').
Proof.
  intros Hm Hk s s' b. unfold bind. destruct (m s) as [s1 [a|x]] eqn:E; [|discriminate].
  rewrite (Hm _ _ _ E). apply Hk.
Qed.
Lemma depth_mono f : forall inds, leM (calculate_kepler_f gb f inds) (calculate_kepler_f gb (S f) inds).
Proof.
  induction f as [|f IH]; intros inds; [intros s s' a E; discriminate E|].
  change (leM (calculate_kepler_f gb (S f) inds) (calculate_kepler_f gb (S (S f)) inds)).
  set (f' := S f) in *. change (calculate_kepler_f gb (S f) inds) with (calculate_kepler_f gb f' inds).
  unfold f' at 1. cbn [calculate_kepler_f].
  apply leM_bind; [apply leM_refl|]. intros s. apply leM_bind; [apply leM_refl|]. intros ps.
  destruct (negb _); [apply leM_refl|].
  apply leM_bind; [apply leM_refl|]. intros _. apply leM_bind; [apply leM_refl|]. intros s1.
  apply leM_bind; [apply leM_refl|]. intros k. apply leM_bind; [apply leM_refl|]. intros _.
  destruct (otype s1); [apply leM_refl| |];
    (apply leM_bind; [apply leM_refl|]; intros st1; apply leM_bind; [|intros; apply leM_refl];
     destruct (oauto st1 && negb (odirect st1)); [apply IH|apply leM_refl]).
Qed.

Lemma width_lens (s : orb) : same_width s -> lens (num s) s.
Proof. intros (A & B & C & D & E & G & I & _). now constructor. Qed.

Lemma resolve_exn n i x : resolve n i = Raise x -> x = IndexError \/ (exists a b, i = ISlice a b 0) /\ x = ValueError.
Proof.
  assert (L : forall zs y, resolve_list n zs = Raise y -> y = IndexError).
  { induction zs as [|z zs IH]; cbn; intros y E; [discriminate|]. destruct (py_index n z); [|congruence].
    destruct (resolve_list n zs) as [l|y'] eqn:R; cbn in E; [discriminate|]. apply IH. congruence. }
  destruct i as [|lo hi|z|zs|bs|a b st]; unfold resolve, resolve_gen; intros E; try discriminate; try (left; now apply (L _ _ E)).
  - left. destruct (Nat.eqb (length bs) n); congruence.
  - right. destruct (Z.eqb_spec st 0) as [->|]; [|discriminate]. split; [eauto|congruence].
Qed.
(** a deeper recursion is never needed: the result is the same for every larger bound; the call
    succeeds for every valid index and raises IndexError for the others (ValueError for a slice with
    step 0) *)
Theorem C64_depth : forall (s : orb) inds extra, same_width s ->
  calculate_kepler_f gb (3 + extra) inds s = calculate_kepler gb inds s
  /\ (snd (calculate_kepler gb inds s) = Ok tt <-> exists ps, resolve (num s) inds = Ok ps)
  /\ (snd (calculate_kepler gb inds s) = Ok tt \/ snd (calculate_kepler gb inds s) = Raise IndexError
      \/ (exists a b, inds = ISlice a b 0) /\ snd (calculate_kepler gb inds s) = Raise ValueError).
Proof.
  intros s inds extra Hw. apply width_lens in Hw. set (n := num s) in *. clearbody n.
  destruct (resolve n inds) as [ps|x] eqn:Hr.
  - destruct (calculate_kepler_spec gb n 0 inds ps s Hw Hr) as [kep' [kf' [W [g [E _]]]]].
    unfold calculate_kepler. split; [|rewrite E; split; [split; eauto|auto]]. rewrite E.
    induction extra as [|x IH]; [exact E|]. rewrite <- plus_n_Sm. now apply depth_mono.
  - rewrite (calculate_kepler_raise gb n s inds x Hw Hr). apply resolve_exn in Hr as Ex. split.
    + cbn [Nat.add calculate_kepler_f]. unfold bind at 1, get at 1, bind at 1, lift at 1, num.
      now rewrite (l_k n s Hw), Hr.
    + cbn [snd]. split; [split; [discriminate|intros [ps E]; discriminate]|]. right. destruct Ex as [->|[Ea ->]]; auto.
Qed.
(** the getters of the Kepler elements always succeed *)
Theorem C64_getters : forall (s : orb) k, same_width s -> exists row,
  snd (get_kep_row gb k s) = Ok row /\ length row = num s.
Proof.
  intros s k Hw. apply width_lens in Hw. unfold get_kep_row, bind at 1.
  destruct (kep_check_spec gb (num s) s Hw) as [kep' [kf' [W [g [E [L _]]]]]]. rewrite E.
  unfold bind, get, ret. cbn [snd]. eexists. split; [reflexivity|]. now rewrite map_length.
Qed.
End Rec.

(** two levels are really reached: lazy object of type eccentric with two stale orbits, of which
    one is converted; with a bound of 2 the recursion does not end *)
#[local] Existing Instance NP_toyn.
Example C64_depth_example : exists s0 s, init gd 1%Z (cfgl "eccentric"%string 2) (kwd matd) = Ok s0
  /\ s = fst (run_op gd (OSetCart matd) s0) /\ same_width s /\ okf s = [false; false]
  /\ snd (calculate_kepler_f gd 2 (IInt 0) s) = Raise RecursionError
  /\ snd (calculate_kepler_f gd 3 (IInt 0) s) = Ok tt
  /\ okf (fst (calculate_kepler_f gd 3 (IInt 0) s)) = [true; true].
Proof.
  eexists. eexists. split; [vm_compute; reflexivity|]. split; [vm_compute; reflexivity|].
  vm_compute. repeat split.
Qed.
