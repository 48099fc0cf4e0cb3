(** * The Orbit column functions in exact real arithmetic, elliptic orbits, degrees or radians *)
From Coq Require Import Reals Lra List ZArith Bool.
From Verif Require Import NP KeplerModel ConvModel UnitModel OrbitModel NPReal RealBase Spec AnomReal
  ConvCols KepReal PropsKep PropsAnomaly PropsAnomalyR PropsSolver PropsDegrees PropsCart OrbitBase OrbitOps OrbitGet.
Import ListNotations.
Local Open Scope R_scope.

(** an angle of the API in radians *)
Definition ang (deg : bool) (x : R) : R := if deg then x * (PI / 180) else x.
Definition unang (deg : bool) (x : R) : R := if deg then x * (180 / PI) else x.
Lemma ang_unang deg x : ang deg (unang deg x) = x.
Proof. pose proof PI_RGT_0. unfold ang, unang. destruct deg; [field; lra|auto]. Qed.
Lemma unang_ang deg x : unang deg (ang deg x) = x.
Proof. pose proof PI_RGT_0. unfold ang, unang. destruct deg; [field; lra|auto]. Qed.
Lemma inr_fin deg x : inr deg (Fin x) = Fin (ang deg x).
Proof. unfold inr, ang. destruct deg; auto. now rewrite Fin_radians. Qed.
Lemma outd_fin deg x : outd deg (Fin x) = Fin (unang deg x).
Proof. unfold outd, unang. destruct deg; auto. now rewrite Fin_degrees. Qed.

(** the stored anomaly [x] (radians) of type [t] puts the body at true anomaly [nu] *)
Definition body (t : anomaly) (e x nu : R) : Prop :=
  match t with
  | ATrue => cong2pi x nu
  | AEcc => anomalies_ell e nu x
  | AMean => exists E, cong2pi x (E - e * sin E) /\ anomalies_ell e nu E
  end.

Lemma branch_ell (g : num) fh fp fe x e : e < 1 -> branch g fh fp fe x (Fin e) = fe x (Fin e).
Proof. intros. unfold branch. num. now rewrite Rltb_true by lra. Qed.
Lemma t2e1_ell g deg nu e : 0 <= e < 1 -> exists E, t2e1 g deg (Fin nu) (Fin e) = Fin E
  /\ in_circle (ang deg E) /\ anomalies_ell e (ang deg nu) (ang deg E).
Proof.
  intros He. unfold t2e1. rewrite inr_fin, branch_ell by lra.
  destruct (t2e_eli_real e He (ang deg nu)) as [E0 [-> [_ H3]]]. destruct (wrap_fin E0) as [E [-> [W2 W3]]].
  rewrite outd_fin. exists (unang deg E). rewrite ang_unang. split; [auto|]. split; [auto|].
  exact (ell_compat e _ _ E0 E (cong_refl _) (cong_sym _ _ W3) H3).
Qed.
Lemma e2t1_ell g deg E e : 0 <= e < 1 -> exists nu, e2t1 g deg (Fin E) (Fin e) = Fin nu
  /\ in_circle (ang deg nu) /\ anomalies_ell e (ang deg nu) (ang deg E).
Proof.
  intros He. unfold e2t1. rewrite inr_fin, branch_ell by lra.
  destruct (e2t_eli_real e He (ang deg E)) as [E0 [-> [_ H3]]]. destruct (wrap_fin E0) as [nu [-> [W2 W3]]].
  rewrite outd_fin. exists (unang deg nu). rewrite ang_unang. split; [auto|]. split; [auto|].
  exact (ell_compat e E0 nu _ _ (cong_sym _ _ W3) (cong_refl _) H3).
Qed.
Lemma e2m1_ell g deg E e : e < 1 ->
  e2m1 g deg (Fin E) (Fin e) = Fin (unang deg (ang deg E - e * sin (ang deg E))).
Proof. intros He. unfold e2m1. rewrite inr_fin, branch_ell by lra. unfold e2m_eli. num. now rewrite outd_fin. Qed.
Lemma t2m1_ell g deg nu e : 0 <= e < 1 -> exists E,
  t2m1 g deg (Fin nu) (Fin e) = Fin (unang deg (E - e * sin E))
  /\ in_circle E /\ anomalies_ell e (ang deg nu) E.
Proof.
  intros He. unfold t2m1. rewrite inr_fin. destruct (t2e1_ell (fst g) false (ang deg nu) e He) as [E [-> [H1 H2]]].
  rewrite e2m1_ell, outd_fin by lra. exists E. auto.
Qed.
(** the solver options make sense *)
Definition opts_ok (o : solver_options num) (t : R) : Prop :=
  tol o = Fin t /\ 0 < t /\ exists n, degree o = Fin n /\ 1 <= n.
(** the iteration started for mean anomaly [M] (radians) stops before max_iter *)
Definition solved (o : solver_options num) (M e : R) : Prop :=
  e = 0 \/ converged o (get_kepler_guess (Fin M) (Fin e)) M e.
Lemma m2e_el_ell o t M e : 0 <= e < 1 -> opts_ok o t -> exists E, m2e_el o (Fin M) (Fin e) = Fin E
  /\ (solved o M e -> Rabs (E - e * sin E - M) < t).
Proof.
  intros He [Ht [Hp [n [Hn Hn1]]]]. destruct (Req_dec e 0) as [->|H0].
  - exists M. split; [now apply (m2e_el_zero o t)|]. intros _. replace (M - 0 * sin M - M) with 0 by ring.
    rewrite Rabs_R0. lra.
  - unfold m2e_el. num. rewrite Rltb_false, Reqb_false by lra.
    unfold solved. rewrite get_guess_real by lra.
    destruct (solver_real o n t M e (guessR M e)) as [E [-> [Y _]]]; auto; try lra.
    exists E. split; [auto|]. intros [?|C]; [easy|]. specialize (Y C). unfold kepler_M in Y.
    destruct (Rlt_dec e 1); [exact Y|lra].
Qed.
Lemma m2e1_ell o t deg M e : 0 <= e < 1 -> opts_ok o t -> exists E, m2e1 o deg (Fin M) (Fin e) = Fin E
  /\ (solved o (ang deg M) e -> Rabs (ang deg E - e * sin (ang deg E) - ang deg M) < t).
Proof.
  intros He Ho. unfold m2e1. rewrite inr_fin. destruct (m2e_el_ell o t (ang deg M) e He Ho) as [E [-> H1]].
  rewrite outd_fin. exists (unang deg E). now rewrite ang_unang.
Qed.
Lemma m2t1_ell g o t deg M e : 0 <= e < 1 -> opts_ok o t -> exists nu E, m2t1 g o deg (Fin M) (Fin e) = Fin nu
  /\ in_circle (ang deg nu) /\ anomalies_ell e (ang deg nu) E
  /\ (solved o (ang deg M) e -> Rabs (E - e * sin E - ang deg M) < t).
Proof.
  intros He Ho. unfold m2t1. rewrite inr_fin.
  destruct (m2e1_ell o t false (ang deg M) e He Ho) as [E [-> H1]].
  destruct (e2t1_ell g false E e He) as [nu [-> [H2 H3]]]. rewrite outd_fin.
  exists (unang deg nu), E. rewrite ang_unang. auto.
Qed.

(** ** Which true anomaly a stored anomaly stands for *)
Section Body.
Variable e : R.
Hypothesis He : 0 <= e < 1.
Lemma body_shift x E nu : cong2pi x (E - e * sin E) -> anomalies_ell e nu E -> body AMean e x nu.
Proof. exists E. auto. Qed.
Lemma kepler_shift E E' : cong2pi E E' -> cong2pi (E - e * sin E) (E' - e * sin E').
Proof. intros [n ->]. exists n. rewrite (cong_sin (E' + 2 * PI * IZR n) E') by now exists n. ring. Qed.
Lemma kepler_eq_inj E E' : cong2pi (E - e * sin E) (E' - e * sin E') -> cong2pi E E'.
Proof.
  intros [n Hn]. exists n.
  assert (X : kepler_M e E = kepler_M e (E' + 2 * PI * IZR n)).
  { unfold kepler_M. destruct (Rlt_dec e 1); [|lra].
    rewrite (cong_sin (E' + 2 * PI * IZR n) E') by now exists n. lra. }
  assert (H0 : 0 <= e) by lra.
  destruct (Rtotal_order E (E' + 2 * PI * IZR n)) as [L|[L|L]]; auto;
    pose proof (kepler_incr e _ _ H0 L); lra.
Qed.
(** every stored anomaly stands for exactly one body position *)
Lemma body_ex t x : exists nu, body t e x nu.
Proof.
  destruct t.
  - exists x. apply cong_refl.
  - destruct (e2t_eli_real e He x) as [nu [_ [_ H]]]. now exists nu.
  - destruct (kepler_onto e x) as [E HE]; [lra|]. destruct (e2t_eli_real e He E) as [nu [_ [_ H]]].
    exists nu, E. split; auto. unfold kepler_M in HE. destruct (Rlt_dec e 1); [|lra]. rewrite HE. apply cong_refl.
Qed.
Lemma body_unique t x nu nu' : body t e x nu -> body t e x nu' -> cong2pi nu nu'.
Proof.
  destruct t; cbn [body].
  - intros A B. exact (cong_trans _ _ _ (cong_sym _ _ A) B).
  - apply ell_cong_l.
  - intros [E [A1 A2]] [E' [B1 B2]].
    assert (C : cong2pi E E') by (apply kepler_eq_inj; exact (cong_trans _ _ _ (cong_sym _ _ A1) B1)).
    eapply ell_cong_l; [exact A2|]. exact (ell_compat e _ _ _ _ (cong_refl _) (cong_sym _ _ C) B2).
Qed.
Lemma body_cong t x nu nu' : cong2pi nu nu' -> body t e x nu -> body t e x nu'.
Proof.
  intros C. destruct t; cbn [body].
  - intros A. exact (cong_trans _ _ _ A C).
  - exact (ell_compat e _ _ _ _ C (cong_refl _)).
  - intros [E [A B]]. exists E. split; auto. exact (ell_compat e _ _ _ _ C (cong_refl _) B).
Qed.
(** one common position makes two stored anomalies equivalent *)
Lemma body_same t x t' x' nu0 : body t e x nu0 -> body t' e x' nu0 -> forall nu, body t e x nu <-> body t' e x' nu.
Proof.
  intros A B nu. split; intros C.
  - exact (body_cong t' x' nu0 nu (body_unique t x nu0 nu A C) B).
  - exact (body_cong t x nu0 nu (body_unique t' x' nu0 nu B C) A).
Qed.
End Body.

(** ** The anomaly of another type of a stored column *)
Lemma row5_fin (k : six R) : s5 (fin6 k) = Fin (s5 k). Proof. now destruct k. Qed.
Lemma row1_fin (k : six R) : s1 (fin6 k) = Fin (s1 k). Proof. now destruct k. Qed.
(** the getter for anomaly [w] returns a value that stands for the same body position, up to a
    change of the mean anomaly below the solver tolerance when the stored type is mean *)
Lemma anom1_body w (s : orb num) g (k : six R) : 0 <= s1 k < 1 ->
  (otype s <> AMean \/ w = AMean) -> exists x, anom1 w s g (fin6 k) = Fin x
  /\ forall nu, body (otype s) (s1 k) (ang (odeg s) (s5 k)) nu <-> body w (s1 k) (ang (odeg s) x) nu.
Proof.
  intros He Hn. unfold anom1, nu1, ec1, ma1. rewrite row5_fin, row1_fin.
  set (x := s5 k) in *. set (e := s1 k) in *. set (d := odeg s).
  destruct (otype s) eqn:Et, w; try (exists x; split; [reflexivity|tauto]); try (destruct Hn; congruence).
  - destruct (t2e1_ell (fst g) d x e He) as [E [-> [_ H]]]. exists E. split; auto.
    apply (body_same e He _ _ _ _ (ang d x)); [apply cong_refl|exact H].
  - destruct (t2m1_ell g d x e He) as [E [-> [_ H]]]. eexists. split; [reflexivity|]. rewrite ang_unang.
    apply (body_same e He _ _ _ _ (ang d x)); [apply cong_refl|]. exists E. split; [apply cong_refl|exact H].
  - destruct (e2t1_ell (fst g) d x e He) as [nu [-> [_ H]]]. exists nu. split; auto.
    apply (body_same e He _ _ _ _ (ang d nu)); [exact H|apply cong_refl].
  - rewrite e2m1_ell by lra. eexists. split; [reflexivity|]. rewrite ang_unang.
    destruct (e2t_eli_real e He (ang d x)) as [nu [_ [_ H]]].
    apply (body_same e He _ _ _ _ nu); [exact H|]. exists (ang d x). split; [apply cong_refl|exact H].
Qed.
Lemma anom1_body_mean w (s : orb num) g (k : six R) t : 0 <= s1 k < 1 -> otype s = AMean -> opts_ok (oopts s) t ->
  exists x, anom1 w s g (fin6 k) = Fin x
  /\ (solved (oopts s) (ang (odeg s) (s5 k)) (s1 k) -> exists M', Rabs (M' - ang (odeg s) (s5 k)) < t
        /\ forall nu, body AMean (s1 k) M' nu <-> body w (s1 k) (ang (odeg s) x) nu).
Proof.
  intros He Et Ho. unfold anom1, nu1, ec1, ma1. rewrite Et, row5_fin, row1_fin.
  set (x := s5 k) in *. set (e := s1 k) in *. set (d := odeg s).
  destruct w.
  - destruct (m2t1_ell (fst g) (oopts s) t d x e He Ho) as [nu [E [-> [_ [H1 H2]]]]]. exists nu. split; auto.
    intros S. exists (E - e * sin E). split; [auto|].
    apply (body_same e He _ _ _ _ (ang d nu)); [|apply cong_refl]. exists E. split; [apply cong_refl|exact H1].
  - destruct (m2e1_ell (oopts s) t d x e He Ho) as [E [-> H2]]. exists E. split; auto.
    intros S. exists (ang d E - e * sin (ang d E)). split; [auto|].
    destruct (e2t_eli_real e He (ang d E)) as [nu [_ [_ H]]].
    apply (body_same e He _ _ _ _ nu); [|exact H]. exists (ang d E). split; [apply cong_refl|exact H].
  - exists x. split; auto. intros _. exists (ang d x). split; [|tauto].
    replace (ang d x - ang d x) with 0 by ring. rewrite Rabs_R0. now destruct Ho as [_ [? _]].
Qed.

(** ** The Cartesian state of a stored column *)
(** the stored Kepler column in radians with true anomaly [nu] *)
Definition radk (deg : bool) (k : six R) (nu : R) : six R :=
  mk6 (s0 k) (s1 k) (ang deg (s2 k)) (ang deg (s3 k)) (ang deg (s4 k)) nu.
Lemma edit_ang deg (k : six R) : edit_col deg (fin6 k) = edit_col false (fin6 (radk deg k (ang deg (s5 k)))).
Proof.
  destruct k as [a e i om Om x]. unfold edit_col, radk, ang, fin6, map6. cbn [s0 s1 s2 s3 s4 s5].
  destruct deg; auto. unfold ang6. cbn [s0 s1 s2 s3 s4 s5]. now rewrite !Fin_radians.
Qed.
Lemma peri_nu mu k nu nu' : cong2pi nu nu' -> peri_state mu (with_nu k nu) = peri_state mu (with_nu k nu').
Proof.
  intros C. unfold peri_state, peri_r, peri_s, with_nu, P_axis, Q_axis, W_axis, k_a, k_e, k_i, k_om, k_Om, k_nu.
  cbn [s0 s1 s2 s3 s4 s5]. now rewrite (cong_cos _ _ C), (cong_sin _ _ C).
Qed.
Definition mu_real (s : orb num) (m mu : R) : Prop := mul (oG s) (add (oM0 s) (Fin m)) = Fin mu.
(** [set5 k nu] converted to Cartesian *)
Lemma cconv_real (s : orb num) (k : six R) nu m mu : 0 < mu -> 0 < s0 k -> 0 <= s1 k < 1 -> mu_real s m mu ->
  cconv s (Fin nu) (fin6 k) (Fin m) = fin6 (peri_state mu (radk (odeg s) k (ang (odeg s) nu))).
Proof.
  intros Hmu Ha He Em. unfold cconv, mu_of. fold (mu_real s m mu) in Em. unfold mu_real in Em. rewrite Em.
  replace (set5 (fin6 k) (Fin nu)) with (fin6 (with_nu k nu)) by now destruct k.
  rewrite edit_ang. replace (radk (odeg s) (with_nu k nu) (ang (odeg s) (s5 (with_nu k nu))))
    with (radk (odeg s) k (ang (odeg s) nu)) by now destruct k.
  apply k2c_real. unfold valid_kep, k_a, k_e, k_nu, radk. cbn [s0 s1 s5].
  repeat split; try lra. pose proof (COS_bound (ang (odeg s) nu)). nra.
Qed.
Lemma radk_nu mu deg k nu nu' : cong2pi nu nu' -> peri_state mu (radk deg k nu) = peri_state mu (radk deg k nu').
Proof.
  intros C. replace (radk deg k nu) with (with_nu (radk deg k 0) nu) by reflexivity.
  replace (radk deg k nu') with (with_nu (radk deg k 0) nu') by reflexivity. now apply peri_nu.
Qed.
(** Cartesian elements computed from a stored column: the state at the body's true anomaly *)
Lemma Cc_real (s : orb num) (k : six R) m mu c : 0 < mu -> 0 < s0 k -> 0 <= s1 k < 1 -> mu_real s m mu ->
  otype s <> AMean -> Cc s (fin6 k) (Fin m) c ->
  forall nu, body (otype s) (s1 k) (ang (odeg s) (s5 k)) nu -> c = fin6 (peri_state mu (radk (odeg s) k nu)).
Proof.
  intros Hmu Ha He Em Ht [g ->] nu Hb.
  destruct (anom1_body ATrue s (g, g) k He (or_introl Ht)) as [x [E B]]. cbn [anom1 fst] in E. rewrite E.
  rewrite (cconv_real s k x m mu) by auto. f_equal. apply radk_nu. now apply B in Hb.
Qed.
Lemma Cc_real_mean (s : orb num) (k : six R) m mu c t : 0 < mu -> 0 < s0 k -> 0 <= s1 k < 1 -> mu_real s m mu ->
  opts_ok (oopts s) t -> otype s = AMean -> Cc s (fin6 k) (Fin m) c ->
  exists nu, c = fin6 (peri_state mu (radk (odeg s) k nu))
  /\ (solved (oopts s) (ang (odeg s) (s5 k)) (s1 k) -> exists M', Rabs (M' - ang (odeg s) (s5 k)) < t /\ body AMean (s1 k) M' nu).
Proof.
  intros Hmu Ha He Em Ho Ht [g ->].
  destruct (anom1_body_mean ATrue s (g, g) k t He Ht Ho) as [x [E B]]. cbn [anom1 fst] in E. rewrite E.
  rewrite (cconv_real s k x m mu) by auto. eexists. split; [reflexivity|]. intros S.
  destruct (B S) as [M' [H1 H2]]. exists M'. split; [auto|]. apply H2. apply cong_refl.
Qed.
