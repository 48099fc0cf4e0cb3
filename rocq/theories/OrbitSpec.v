(** * Specification vocabulary for the Orbit class: histories, widths, consistency of the two
    element sets.  Stated with the public conversion functions only. *)
From Coq Require Import List Bool Arith ZArith QArith.
From Verif Require Import NP KeplerModel ConvModel UnitModel OrbitModel Lists ConvCols ArraySpec
  PropsAnomaly OrbitLists OrbitBase OrbitOps.
Import ListNotations.
Local Open Scope nat_scope.

Section OrbitSpec.
Context {F : Type} `{NP F}.
Notation orb := (orb F).

(** ** Histories: each call with the contents its np.empty buffers happen to have.
    An exception leaves the object as the call left it; the history goes on. *)
Definition history := list ((nat -> nat -> F) * op F).
Fixpoint run (h : history) (s : orb) : orb :=
  match h with [] => s | (gb, o) :: t => run t (fst (run_op gb o s)) end.
(** [ok o s] at every step *)
Fixpoint steps_ok (ok : (nat -> nat -> F) -> op F -> orb -> Prop) (h : history) (s : orb) : Prop :=
  match h with [] => True | (gb, o) :: t => ok gb o s /\ steps_ok ok t (fst (run_op gb o s)) end.

(** ** C41: every per-orbit array has [num] entries *)
Definition same_width (s : orb) : Prop :=
  let n := num s in
  length (om s) = n /\ length (ocart s) = n /\ length (okep s) = n /\ length (onu s) = n
  /\ length (oMa s) = n /\ length (ocf s) = n /\ length (okf s) = n
  /\ shape_of (oE s) = [n] /\ length (entries (oE s)) = n.

(** ** Consistency of one orbit *)
Definition mu_orbit (s : orb) (m : F) : F := mul (oG s) (add (oM0 s) m).
(** [k] is what the conversion functions give for [c] under the settings of [s] *)
Definition kepler_of (gb : nat -> nat -> F) (s : orb) (c : six F) (m : F) (k : six F) : Prop :=
  exists k0, snd (cart_to_kep gb (KMat [c]) (MuV [mu_orbit s m]) (odeg s)) = Ok (KMat [k0])
  /\ match otype s with
     | ATrue => k = k0
     | AEcc => exists x, true_to_eccentric (gb 1) (fresh [1] [s5 k0]) (fresh [1] [s1 k0]) (odeg s) = Ok (fresh [1] [x])
                 /\ k = set5 k0 x
     | AMean => exists x, true_to_mean (gb 1) (gb 2) (fresh [1] [s5 k0]) (fresh [1] [s1 k0]) (odeg s) = Ok (fresh [1] [x])
                 /\ k = set5 k0 x
     end.
Definition cartesian_of (gb : nat -> nat -> F) (s : orb) (k : six F) (m : F) (c : six F) : Prop :=
  exists nu,
  match otype s with
  | ATrue => nu = s5 k
  | AEcc => eccentric_to_true (gb 1) (fresh [1] [s5 k]) (fresh [1] [s1 k]) (odeg s) = Ok (fresh [1] [nu])
  | AMean => mean_to_true (gb 1) (fresh [1] [s5 k]) (fresh [1] [s1 k]) (oopts s) (odeg s) = Ok (fresh [1] [nu])
  end
  /\ snd (kep_to_cart (gb 2) (KMat [set5 k nu]) (MuV [mu_orbit s m]) (odeg s)) = Ok (KMat [c]).
(** one of the two element sets is the conversion of the other, whatever the buffers held *)
Definition consistent (s : orb) (c k : six F) (m : F) : Prop :=
  (forall gb, kepler_of gb s c m k) \/ (forall gb, cartesian_of gb s k m c).
(** [np.isnan] of a column *)
Definition has_nan (c : six F) : Prop :=
  isnan (s0 c) = true \/ isnan (s1 c) = true \/ isnan (s2 c) = true
  \/ isnan (s3 c) = true \/ isnan (s4 c) = true \/ isnan (s5 c) = true.
(** every orbit of [s] whose twelve values are numbers is consistent *)
Definition all_consistent (s : orb) : Prop :=
  forall j c k m, nth_error (ocart s) j = Some c -> nth_error (okep s) j = Some k ->
    nth_error (om s) j = Some m -> has_nan c \/ has_nan k \/ consistent s c k m.
(** what IEEE guarantees about NaN and comparisons *)
Definition nan_arith : Prop := isnan (nan : F) = true /\ forall x : F, isnan x = false -> ordered1 x.

(** ** Equivalence with the column functions used in the proofs *)
Lemma has_nan_iff (c : six F) : has_nan c <-> nan6 c = true.
Proof. unfold has_nan, nan6. rewrite !orb_true_iff. tauto. Qed.
Lemma c2k_one gb c mu deg : snd (cart_to_kep gb (KMat [c]) (MuV [mu]) deg) = Ok (KMat [c2k_col deg c mu]).
Proof. unfold cart_to_kep, mu_bcast. cbn [length Nat.eqb snd]. now rewrite cart_to_kep_cols_map. Qed.
Lemma k2c_one g k mu deg : snd (kep_to_cart g (KMat [k]) (MuV [mu]) deg) = Ok (KMat [k2c_col (edit_col deg k) mu]).
Proof.
  unfold kep_to_cart, mu_mask. cbn [length Nat.eqb snd].
  rewrite kep_to_cart_cols_map, kep_edit_map; [reflexivity|now rewrite kep_edit_map].
Qed.
Lemma branch_ordered g g' fh fp fe (x e : F) : ordered1 e -> branch g fh fp fe x e = branch g' fh fp fe x e.
Proof.
  unfold ordered1, branch. destruct (ltb (lit 1) e), (eqb e (lit 1)), (ltb e (lit 1)); tauto.
Qed.
Lemma s1_set5 (k : six F) x : s1 (set5 k x) = s1 k. Proof. now destruct k. Qed.
Lemma nan6_s1 (k : six F) : nan6 k = false -> isnan (s1 k) = false.
Proof. unfold nan6. rewrite !orb_false_iff. tauto. Qed.
Lemma Kc_kepler_of s c m k : nan_arith -> nan6 k = false -> Kc s c m k -> forall gb, kepler_of gb s c m k.
Proof.
  intros [_ Ho] Hn [g ->] gb. unfold kconv in *. change (mu_of s m) with (mu_orbit s m) in *.
  exists (c2k_col (odeg s) c (mu_orbit s m)). split; [apply c2k_one|].
  set (k0 := c2k_col _ _ _) in *.
  assert (O : ordered1 (s1 k0)).
  { apply Ho. destruct (otype s); apply nan6_s1 in Hn; rewrite ?s1_set5 in Hn; exact Hn. }
  destruct (otype s); [reflexivity| |].
  - rewrite t2e_arr by reflexivity. eexists. split; [reflexivity|]. f_equal.
    unfold t2e1. f_equal. f_equal. now apply branch_ordered.
  - rewrite t2m_arr by reflexivity. eexists. split; [reflexivity|]. f_equal.
    unfold t2m1, e2m1, t2e1. cbn [fst snd].
    rewrite (branch_ordered (fst g) (gb 1 0) t2e_hyp t2e_per t2e_eli) by auto.
    now rewrite (branch_ordered (snd g) (gb 2 0) e2m_hyp e2m_per e2m_eli) by auto.
Qed.
Lemma Cc_cartesian_of s c m k : nan_arith -> nan6 k = false -> Cc s k m c -> forall gb, cartesian_of gb s k m c.
Proof.
  intros [_ Ho] Hn [g ->] gb. unfold cconv. change (mu_of s m) with (mu_orbit s m).
  assert (O : ordered1 (s1 k)) by now apply Ho, nan6_s1.
  exists (nu1 s g k). split; [|apply k2c_one]. unfold nu1. destruct (otype s); [reflexivity| |].
  - rewrite e2t_arr by reflexivity. cbn. unfold e2t1.
    now rewrite (branch_ordered g (gb 1 0) e2t_hyp e2t_per e2t_eli) by auto.
  - rewrite m2t_arr by reflexivity. cbn. unfold m2t1, e2t1.
    now rewrite (branch_ordered g (gb 1 0) e2t_hyp e2t_per e2t_eli) by auto.
Qed.
Lemma aligned_same_width n (s : orb) : aligned n s -> same_width s /\ num s = n.
Proof.
  intros [[L1 L2 L3 L4 L5 L6 L7] [d [HE Ld]]]. unfold same_width, num. rewrite HE. cbn. now rewrite L3.
Qed.
End OrbitSpec.
Arguments history F : clear implicits.
