(** * C67 for the Orbit class: assigning integer arrays to the anomaly properties *)
From Coq Require Import String Reals Lra List Bool Arith Lia ZArith QArith.
From Verif Require Import NP KeplerModel ConvModel UnitModel OrbitModel Lists ConvCols ArraySpec
  NPReal RealBase Spec AnomReal KepReal PropsKep CartInv PropsAnomaly PropsAnomalyR PropsSolver PropsScalar PropsCart
  PropsDegrees PropsEqui PropsEquiCart EllState OrbitLists OrbitBase OrbitOps OrbitSetters OrbitGet OrbitSpec PropsOrbitWidth PropsOrbitDirect
  PropsOrbitLazy PropsOrbitWrite OrbitReal PropsOrbitType PropsOrbitProp PropsOrbitPropR PropsNewton PropsOrbitNewton PropsOrbitEqui
  PropsOrbitEquiR PropsOrbitAnomaly LagTrig PropsConverge PropsConvergeOrbit DtypeModel PropsDtype PropsDtypeR.
Import ListNotations.
Local Open Scope R_scope.

Section Model.
Context {F : Type} `{NP F}.
Variables (tr : F -> F) (gb : nat -> nat -> F).
(** the conversion called by the setter for anomaly [w] of an object of type [t]; [self.e] is a
    float64 array (orbit.py:918-940, 952-974, 986-1010) *)
Definition conv_d (w t : anomaly) (o : solver_options F) (deg : bool) (v : targ F) (e : targ F) : res (targ F) :=
  match w, t with
  | ATrue, AEcc => true_to_eccentric_d tr (gb 27) v e deg
  | ATrue, AMean => true_to_mean_d tr (gb 27) (gb 28) v e deg
  | AEcc, ATrue => eccentric_to_true_d tr (gb 27) v e deg
  | AEcc, AMean => eccentric_to_mean_d tr (gb 27) v e deg
  | AMean, ATrue => mean_to_true_d tr (gb 27) v e o deg
  | AMean, AEcc => mean_to_eccentric_d tr v e o deg
  | _, _ => Ok v
  end.
(** the three anomaly setters for an array [v] of dtype [d]; the value is stored into the float64
    Kepler array *)
Definition set_of_d (w : anomaly) (d : dtype) (v : arg F) : M unit :=
  bind get (fun s =>
  if okro s then raise AttributeError else
  bind (if anomaly_eqb w (otype s) then set_anom gb v
        else bind (get_e gb) (fun e =>
             bind (lift (data (conv_d w (otype s) (oopts s) (odeg s) (v, d) (fresh [length e] e, DFloat)))) (fun x =>
             set_anom gb x)))
    (fun _ => after_anom gb)).
(** float64 arrays, and integer arrays on an object in degrees: the setters of the main model *)
Lemma buf_arr deg (v : arg F) d (e : targ F) : d = DFloat \/ deg = true -> forall s m l, fst e = Arr s m l -> snd e = DFloat -> buf deg (v, d) e = DFloat.
Proof. intros Hd s m l E1 E2. unfold buf. destruct deg; [auto|]. destruct Hd as [-> | ]; [|discriminate]. cbn [fst snd]. destruct v; [rewrite E1, E2|]; reflexivity. Qed.
Lemma conv_d_float w t o deg v d l : d = DFloat \/ deg = true ->
  w <> t -> data (conv_d w t o deg (v, d) (fresh [length l] l, DFloat))
  = match w, t with
    | ATrue, AEcc => true_to_eccentric (gb 27) v (fresh [length l] l) deg
    | ATrue, AMean => true_to_mean (gb 27) (gb 28) v (fresh [length l] l) deg
    | AEcc, ATrue => eccentric_to_true (gb 27) v (fresh [length l] l) deg
    | AEcc, AMean => eccentric_to_mean (gb 27) v (fresh [length l] l) deg
    | AMean, ATrue => mean_to_true (gb 27) v (fresh [length l] l) o deg
    | AMean, AEcc => mean_to_eccentric v (fresh [length l] l) o deg
    | _, _ => Ok v
    end.
Proof.
  intros Hd Hw. set (e := fresh [length l] l).
  assert (B : forall x, buf deg (x, d) (e, DFloat) = DFloat) by (intros; eapply buf_arr; [auto|reflexivity|reflexivity]).
  assert (B2 : forall x, buf false (x, DFloat) (e, DFloat) = DFloat) by (intros; eapply buf_arr; [auto|reflexivity|reflexivity]).
  assert (D : (if deg then DFloat else d) = DFloat) by (destruct deg; auto; destruct Hd; [auto|discriminate]).
  destruct w, t; try congruence; cbn [conv_d].
  - apply (float_anomaly_buf tr (v, d) (e, DFloat) deg (B v)).
  - unfold true_to_mean_d, true_to_mean, drad. cbn [fst snd]. rewrite D.
    destruct (float_anomaly_buf tr (in_rad deg v, DFloat) (e, DFloat) false (B2 _)) as [Q _]. specialize (Q (gb 27)). cbn [fst] in Q.
    rewrite <- Q. unfold data at 1 2. cbn [rbind].
    destruct (true_to_eccentric_d tr (gb 27) (in_rad deg v, DFloat) (e, DFloat) false) as [[E de]|] eqn:EE; [|reflexivity].
    cbn [rbind fst]. assert (de = DFloat) as ->.
    { unfold true_to_eccentric_d in EE. destruct (broadcast _ _); [|discriminate]. cbn [rbind] in EE. congruence. }
    destruct (float_anomaly_buf tr (E, DFloat) (e, DFloat) false (B2 _)) as [_ [_ [Q2 _]]]. specialize (Q2 (gb 28)). cbn [fst] in Q2.
    rewrite <- Q2. unfold data. destruct (eccentric_to_mean_d _ _ _ _ _); reflexivity.
  - apply (float_anomaly_buf tr (v, d) (e, DFloat) deg (B v)).
  - apply (float_anomaly_buf tr (v, d) (e, DFloat) deg (B v)).
  - unfold mean_to_true_d, mean_to_true, drad. cbn [fst snd]. rewrite D.
    destruct (float_anomaly_buf tr (in_rad deg v, DFloat) (e, DFloat) false (B2 _)) as [_ [_ [_ Q]]]. specialize (Q o). cbn [fst] in Q.
    rewrite <- Q. unfold data at 1 2. cbn [rbind].
    destruct (mean_to_eccentric_d tr (in_rad deg v, DFloat) (e, DFloat) o false) as [[E de]|] eqn:EE; [|reflexivity].
    cbn [rbind fst]. assert (de = DFloat) as ->.
    { unfold mean_to_eccentric_d in EE. rewrite B2 in EE. cbn [fst snd] in EE. destruct (broadcast _ _) as [[|]|]; [| |discriminate]; cbn [rbind] in EE.
      - destruct (eqb _ _); congruence.
      - destruct (Nat.eqb _ _); congruence. }
    destruct (float_anomaly_buf tr (E, DFloat) (e, DFloat) false (B2 _)) as [_ [Q2 _]]. specialize (Q2 (gb 27)). cbn [fst] in Q2.
    rewrite <- Q2. unfold data. destruct (eccentric_to_true_d _ _ _ _ _); reflexivity.
  - apply (float_anomaly_buf tr (v, d) (e, DFloat) deg (B v)).
Qed.
End Model.

(** Any arithmetic: float64 values, or an object in degrees: the setters of the main model *)
Theorem C67_float_setter : forall F (H : NP F) (tr : F -> F) gb w d v (s : OrbitModel.orb F), d = DFloat \/ odeg s = true ->
  set_of_d tr gb w d v s = set_of gb w v s.
Proof.
  intros F H tr gb w d v s Hd. unfold set_of_d, set_of.
  destruct w; unfold set_true_anomaly, set_eccentric_anomaly, set_mean_anomaly; rewrite !bind_get;
    (destruct (okro s); [reflexivity|]); destruct (otype s) eqn:Et; cbn [anomaly_eqb]; try reflexivity;
    rewrite !bind_assoc; unfold bind at 1 4; destruct (get_e gb s) as [s1 [e|]]; try reflexivity;
    rewrite conv_d_float by (auto; discriminate); reflexivity.
Qed.
(** An integer array on an object in radians: [orb.mean_anomaly = np.array(\[1\])] on an object of type
    eccentric with e = 1/2 stores the eccentric anomaly 1, off Kepler's equation by more than 1/4; the
    float array reads back to the tolerance (C66_anomaly_other). *)
Theorem C67_setter_refuted : forall gb gb' (s : orb) (k : six R) t,
  aligned 1 s -> (lazy_mode s -> kep_fresh s) -> otype s = AEcc -> okro s = false -> odeg s = false ->
  conv_opts (oopts s) t -> t <= 1 / 1000 -> snd (get_kepler gb s) = Ok [fin6 k] -> s1 k = 1 / 2 ->
  exists s' E, set_of_d ntrunc gb AMean DInt (fresh [1%nat] [Fin (IZR 1)]) s = (s', Ok tt)
  /\ snd (get_of gb' AEcc s') = Ok [Fin E] /\ 1 / 4 <= Rabs (E - s1 k * sin E - 1).
Proof.
  intros gb gb' s k t A Hf Et Ho Hd Hc Ht Ek He. pose proof A as [Hs HE].
  assert (Kc : kchk gb s = s) by (apply (settled_kchk gb 1); [auto|now apply fresh_settled]).
  rewrite (get_kepler_eq gb 1) in Ek by auto. cbn [snd] in Ek. injection Ek as Ek.
  set (v := fresh [1%nat] [Fin (IZR 1)]).
  assert (P : 1 <= 2 * PI) by (pose proof PI2_1; unfold PI2 in *; lra).
  destruct (m2e_el_ell (oopts s) t 1 (1/2)) as [E [Em S]]; [lra|now apply conv_opts_ok|].
  assert (So : solved (oopts s) 1 (1/2)) by (apply (conv_solved _ t); auto; lra).
  specialize (S So).
  assert (B : 1 <= E < 2).
  { pose proof (SIN_bound E) as Sb. pose proof (conv_opts_pos _ _ Hc). apply Rabs_def2 in S. 
    pose proof (sin_ge E ltac:(lra)) as Sl. split; [|lra]. destruct (Rle_dec 1 E); [auto|].
    assert (0 <= E * (1 - E ^ 2)) by (apply Rmult_le_pos; nra). nra. }
  assert (X : forall e r, wfv e -> data (mean_to_eccentric_d ntrunc (v, DInt) (e, DFloat) (oopts s) (odeg s)) = Ok r -> wfv r).
  { intros e r We. unfold data, mean_to_eccentric_d. cbn [fst]. destruct (broadcast _ e) as [p|] eqn:Eb; [|discriminate]. cbn [rbind].
    apply broadcast_wf in Eb; [|apply wfv_in; now apply wfv_fresh1|auto]. destruct p as [x w|sh mx dx me de].
    - destruct (eqb w _); cbn [rbind fst]; injection 1 as <-; [now apply wfv_fresh1|]. apply wfv_out. cbn; auto.
    - destruct (Nat.eqb (length dx) 0) eqn:E0; cbn [rbind fst]; injection 1 as <-.
      + apply Nat.eqb_eq in E0. apply wfv_fresh. cbn. lia.
      + apply wfv_out, wfv_fresh. unfold nditer. rewrite map2_length, !map_length. lia. }
  assert (Q : set_of_d ntrunc gb AMean DInt v s = set_of gb AEcc v s).
  { unfold set_of_d. rewrite bind_get, Ho, Et. cbn [anomaly_eqb conv_d].
    etransitivity; [apply (conv_set_eq gb 1 (fun v e => data (mean_to_eccentric_d ntrunc (v, DInt) (e, DFloat) (oopts s) (odeg s)))); auto; now apply wfv_fresh1|].
    rewrite (set_of_eq gb 1), Ho by (auto; now apply wfv_fresh1). unfold anom_arg, base. rewrite Et, Hd. cbn [anomaly_eqb].
    rewrite Kc. cbv zeta. rewrite Kc in Ek. rewrite Ek. cbn [map length row_get]. rewrite row1_fin, He.
    unfold mean_to_eccentric_d, data, v, fresh. cbn [fst snd in_rad broadcast shape_eqb Nat.eqb andb rbind length out_deg seq nditer map nth map2 buf store].
    rewrite Em, (trunc_eq 1) by (lia || lra). reflexivity. }
  rewrite Q.
  assert (R : exists s', set_of gb AEcc v s = (s', Ok tt)).
  { rewrite (set_of_eq gb 1), Ho by (auto; now apply wfv_fresh1). unfold anom_arg. rewrite Et. unfold v. rewrite bcast1_fresh by auto. eauto. }
  destruct R as [s' R]. exists s', 1. split; [auto|]. rewrite <- Et in R.
  destruct (C44_anomaly_partial gb gb' 1 v s s' A ltac:(now apply wfv_fresh1) Hf R) as [vs [V1 V2]]. rewrite Et in V1. rewrite V1.
  destruct V2 as [L V2]. destruct vs as [|a [|]]; try discriminate. pose proof (V2 0%nat a eq_refl) as Va.
  assert (a = Fin 1) as -> by (unfold v, fresh in Va; cbn in Va; congruence).
  split; [reflexivity|]. rewrite He. assert (1 - 1 ^ 3 / 6 <= sin 1) by (apply sin_ge; lra).
  rewrite Rabs_left1 by lra. lra.
Qed.
(** a new lazy object of type eccentric after [orb.kepler = (1, 1/2, pi/2, 0, 0, pi)] *)
Example C67_setter_example : forall gb, exists s s' E,
  set_kepler gb (kvec (ktp PI)) (with_type AEcc (s_new true false)) = (s, Ok tt)
  /\ set_of_d ntrunc gb AMean DInt (fresh [1%nat] [Fin (IZR 1)]) s = (s', Ok tt)
  /\ snd (get_of gb AEcc s') = Ok [Fin E] /\ 1 / 4 <= Rabs (E - 1 / 2 * sin E - 1).
Proof.
  intros gb. pose (s := aft_kep gb (with_kep (fun _ => [fin6 (ktp PI)]) (with_type AEcc (s_new true false)))).
  assert (A : aligned 1 s) by (split; [now constructor|]; exists [nan]; auto).
  assert (Hf : lazy_mode s -> kep_fresh s).
  { intros _ j c Hc. right. destruct j as [|[|j]]; cbn in Hc; try discriminate. injection Hc as <-. apply has_nan_iff. reflexivity. }
  assert (K : snd (get_kepler gb s) = Ok [fin6 (ktp PI)]).
  { rewrite (get_kepler_eq gb 1) by apply A. cbn [snd]. rewrite (kchk_keeps gb 1); [reflexivity|apply A|exact Hf]. }
  destruct (C67_setter_refuted gb gb s (ktp PI) (/ 1000000000000) A Hf eq_refl eq_refl eq_refl conv_opts_default ltac:(lra) K eq_refl)
    as [s' [E [E1 [E2 E3]]]].
  exists s, s', E. split; [reflexivity|]. split; [exact E1|]. split; [exact E2|]. exact E3.
Qed.
