(** * C74: assigning one element leaves the other elements of that side as they were read *)
From Coq Require Import String List Bool Arith Lia ZArith QArith.
From Verif Require Import NP KeplerModel ConvModel UnitModel OrbitModel Lists ConvCols ArraySpec
  PropsAnomaly OrbitLists OrbitBase OrbitOps OrbitSetters OrbitInv OrbitSpec NPToyN PropsOrbitWidth OrbitGet
  PropsOrbitDirect PropsOrbitLazy PropsOrbitWrite PropsOrbitLost PropsOrbitCalc PropsOrbitRead.
Import ListNotations.
Local Open Scope nat_scope.

Section Frame.
Context {F : Type} `{NP F}.
Notation orb := (orb F).

(** ** Specification *)
(** the element sets [l'] differ from [l] at most in the elements satisfying [P] *)
Definition only_elements (P : nat -> Prop) (k k' : six F) : Prop :=
  (P 0 \/ s0 k' = s0 k) /\ (P 1 \/ s1 k' = s1 k) /\ (P 2 \/ s2 k' = s2 k)
  /\ (P 3 \/ s3 k' = s3 k) /\ (P 4 \/ s4 k' = s4 k) /\ (P 5 \/ s5 k' = s5 k).

(** ** Proof *)
Lemma only_same P k : only_elements P k k.
Proof. repeat split; auto. Qed.
Lemma only_set i k x : i < 6 -> only_elements (eq i) k (row_set i k x).
Proof. intros Hi. destruct k. do 6 (destruct i as [|i]; [repeat split; cbn; auto|]). lia. Qed.
Lemma kread gb n (s : orb) j c k m cb kb : lens n s -> col s j c k m cb kb ->
  exists k' kb', col (kchk gb s) j c k' m cb kb' /\
  (lazy s && negb kb && negb (nan6 c) = false /\ k' = k /\ kb' = kb
   \/ lazy s && negb kb && negb (nan6 c) = true /\ Kc s c m k' /\ kb' = true).
Proof.
  intros Hs C. destruct (kchk_spec gb n s Hs) as [_ [_ [_ [_ [_ [_ [_ [_ E]]]]]]]].
  destruct (E _ _ _ _ _ _ C) as [c' [k' [cb' [kb' [C' [-> [-> [R1 R2]]]]]]]]. exists k', kb'. split; [auto|].
  destruct (lazy s && negb kb && negb (nan6 c)); [right|left]; intuition.
Qed.
Lemma kep_frame g gb gb' n i vs (s b t : orb) : i < 6 -> lens n s -> lens n t -> b = s \/ b = kchk g s -> settings t = settings s ->
  okep t = set_row i (okep b) vs -> (lazy s = true -> ocart t = ocart b /\ om t = om b /\ okf t = okf b) ->
  forall j k k', nth_error (okep (kchk gb s)) j = Some k -> nth_error (okep (kchk gb' t)) j = Some k' -> ordered1 (s1 k) ->
  only_elements (eq i) k k'.
Proof.
  intros Hi Hs Ht Hb Es Ek El j k k' Hk Hk' O.
  assert (Hj : j < n) by (apply nth_error_lt in Hk; pose proof (lens_kchk gb n s Hs) as []; lia).
  destruct (col_ex n s j Hs Hj) as [c [ks [m [cb [kb C]]]]].
  destruct (kread gb n s _ _ _ _ _ _ Hs C) as [k1 [kb1 [C1 Q1]]]. rewrite (col_k _ _ _ _ _ _ _ C1) in Hk. injection Hk as ->.
  assert (B : exists k0 kb0, col b j c k0 m cb kb0 /\
    (k0 = ks /\ kb0 = kb \/ lazy s && negb kb && negb (nan6 c) = true /\ Kc s c m k0 /\ kb0 = true)).
  { destruct Hb as [-> | ->]; [exists ks, kb; auto|]. destruct (kread g n s _ _ _ _ _ _ Hs C) as [k0 [kb0 [C0 Q0]]].
    exists k0, kb0. split; [auto|]. intuition. }
  destruct B as [k0 [kb0 [C0 Q0]]].
  destruct (col_ex n t j Ht Hj) as [ct [kt [mt [cbt [kbt Ct]]]]].
  assert (Et : exists x, kt = row_set i k0 x).
  { pose proof (col_k _ _ _ _ _ _ _ Ct) as Q. rewrite Ek in Q. unfold set_row in Q. rewrite nth_error_map2, (col_k _ _ _ _ _ _ _ C0) in Q.
    destruct (nth_error vs j) as [x|]; [|discriminate]. injection Q as <-. eauto. }
  destruct Et as [x ->].
  destruct (kread gb' n t _ _ _ _ _ _ Ht Ct) as [k2 [kb2 [C2 Q2]]]. rewrite (col_k _ _ _ _ _ _ _ C2) in Hk'. injection Hk' as ->.
  rewrite (lazy_settings t s Es) in Q2. destruct (lazy s) eqn:L.
  - destruct (El eq_refl) as [E1 [E2 E3]].
    assert (ct = c) as -> by (pose proof (col_c _ _ _ _ _ _ _ Ct) as Q; rewrite E1, (col_c _ _ _ _ _ _ _ C0) in Q; congruence).
    assert (mt = m) as -> by (pose proof (col_m _ _ _ _ _ _ _ Ct) as Q; rewrite E2, (col_m _ _ _ _ _ _ _ C0) in Q; congruence).
    assert (kbt = kb0) as -> by (pose proof (col_kb _ _ _ _ _ _ _ Ct) as Q; rewrite E3, (col_kb _ _ _ _ _ _ _ C0) in Q; congruence).
    destruct Q0 as [[-> ->]|[W0 [Q0 ->]]].
    + destruct Q1 as [[W1 [-> _]]|[W1 [Q1 _]]], Q2 as [[W2 [-> _]]|[W2 [Q2 _]]]; try congruence.
      * now apply only_set.
      * apply (Kc_settings t s) in Q2; auto. rewrite (Kc_det1 s c m k k' O Q1 Q2). apply only_same.
    + destruct Q1 as [[W1 _]|[_ [Q1 _]]]; [congruence|]. rewrite (Kc_det1 s c m k k0 O Q1 Q0) in *.
      destruct Q2 as [[_ [-> _]]|[W2 _]]; [now apply only_set|discriminate].
  - cbn in Q0, Q1, Q2. destruct Q0 as [[-> _]|[? _]]; [|discriminate]. destruct Q1 as [[_ [-> _]]|[? _]]; [|discriminate].
    destruct Q2 as [[_ [-> _]]|[? _]]; [|discriminate]. now apply only_set.
Qed.

(** Every arithmetic, mode and state (stale or not): [orb.a = v], ..., [orb.anom = v]. *)
Theorem C74_kepler : forall gb gb' gb'' n i v (s s' : orb), lens n s -> wfv v -> i < 6 -> set_kep_row gb i v s = (s', Ok tt) ->
  exists ks ks', snd (get_kepler gb' s) = Ok ks /\ snd (get_kepler gb'' s') = Ok ks' /\ length ks = n /\ length ks' = n
  /\ forall j k k', nth_error ks j = Some k -> nth_error ks' j = Some k' -> ordered1 (s1 k) -> only_elements (eq i) k k'.
Proof.
  intros gb gb' gb'' n i v s s' Hs Hv Hi E. rewrite (set_kep_row_eq gb n) in E by auto. destruct (okro s); [discriminate|].
  destruct (bcast1 n v) as [vs|] eqn:Eb; [|discriminate]. injection E as <-.
  assert (L : length vs = n) by (eapply bcast1_length; eauto using wfv_wf).
  set (t := with_kep (fun c => set_row i c vs) s).
  assert (H1 : lens n t) by (apply lens_with_kep; auto; rewrite set_row_length, (l_k n s Hs); lia).
  assert (H2 : lens n (aft_keprow gb t)) by now apply lens_aft_keprow.
  rewrite (get_kepler_eq gb' n), (get_kepler_eq gb'' n) by auto. do 2 eexists. split; [reflexivity|]. split; [reflexivity|].
  split; [apply (lens_kchk gb' n s Hs)|]. split; [apply (lens_kchk gb'' n _ H2)|].
  apply (kep_frame gb gb' gb'' n i vs s s); auto.
  - now rewrite (aft_keprow_settings gb n).
  - now rewrite (aft_keprow_okep gb n).
  - intros Lz. apply lazy_mode_iff in Lz. unfold aft_keprow. change (odirect t) with (odirect s).
    rewrite (lazy_mode_direct s Lz). auto.
Qed.
(** [orb.true_anomaly = v], [orb.eccentric_anomaly = v], [orb.mean_anomaly = v] change at most the anomaly *)
Theorem C74_anomaly : forall gb gb' gb'' n w v (s s' : orb), lens n s -> wfv v -> set_of gb w v s = (s', Ok tt) ->
  exists ks ks', snd (get_kepler gb' s) = Ok ks /\ snd (get_kepler gb'' s') = Ok ks' /\ length ks = n /\ length ks' = n
  /\ forall j k k', nth_error ks j = Some k -> nth_error ks' j = Some k' -> ordered1 (s1 k) -> only_elements (eq 5) k k'.
Proof.
  intros gb gb' gb'' n w v s s' Hs Hv E. rewrite (set_of_eq gb n) in E by auto. destruct (okro s); [discriminate|].
  destruct (anom_arg gb w s v) as [x|] eqn:Ea; [|discriminate].
  destruct (bcast1 n x) as [vs|] eqn:Eb; [|discriminate]. injection E as <-.
  pose proof (lens_base gb n w s Hs) as Hb. pose proof (base_settings gb n w s Hs) as Sb.
  assert (L : length vs = n) by (apply (bcast1_length n x); [apply wfv_wf; apply (anom_arg_wf gb n w s v); auto|auto]).
  set (t := with_kep (fun c => set_row 5 c vs) (base gb w s)).
  assert (H1 : lens n t) by (apply lens_with_kep; auto; rewrite set_row_length, (l_k n _ Hb); lia).
  assert (H2 : lens n (aft_keprow gb t)) by now apply lens_aft_keprow.
  assert (H3 : lens n (aft_keprow gb (aft_keprow gb t))) by now apply lens_aft_keprow.
  rewrite (get_kepler_eq gb' n), (get_kepler_eq gb'' n) by auto. do 2 eexists. split; [reflexivity|]. split; [reflexivity|].
  split; [apply (lens_kchk gb' n s Hs)|]. split; [apply (lens_kchk gb'' n _ H3)|].
  apply (kep_frame gb gb' gb'' n 5 vs s (base gb w s)); auto; try lia.
  - unfold base. destruct (anomaly_eqb w (otype s)); auto.
  - rewrite !(aft_keprow_settings gb n) by auto. exact Sb.
  - now rewrite !(aft_keprow_okep gb n).
  - intros Lz. rewrite <- (lazy_settings (base gb w s) s Sb) in Lz. apply lazy_mode_iff in Lz. pose proof (lazy_mode_direct _ Lz) as D.
    unfold aft_keprow. change (odirect t) with (odirect (base gb w s)). rewrite D. cbn [odirect with_cf].
    change (odirect t) with (odirect (base gb w s)). rewrite D. auto.
Qed.

(** Cartesian elements.  Full claim: in every state.  Missing: lazy mode with the Cartesian side stale
    (refuted below). *)
Theorem C74_cartesian_partial : forall gb gb' gb'' n i v (s s' : orb), lens n s -> wfv v -> i < 6 -> (lazy_mode s -> cart_fresh s) ->
  set_cart_row gb i v s = (s', Ok tt) ->
  exists cs cs', snd (get_cartesian gb' s) = Ok cs /\ snd (get_cartesian gb'' s') = Ok cs' /\ length cs = n /\ Forall2 (only_elements (eq i)) cs cs'.
Proof.
  intros gb gb' gb'' n i v s s' Hs Hv Hi Hf E. rewrite (set_cart_row_eq gb n) in E by auto. destruct (ocro s); [discriminate|].
  destruct (bcast1 n v) as [vs|] eqn:Eb; [|discriminate]. injection E as <-.
  assert (L : length vs = n) by (eapply bcast1_length; eauto using wfv_wf).
  set (t := with_cart (fun c => set_row i c vs) s).
  assert (H1 : lens n t) by (apply lens_with_cart; auto; rewrite set_row_length, (l_c n s Hs); lia).
  assert (H2 : lens n (aft_cartrow gb t)) by now apply lens_aft_cartrow.
  rewrite (get_cartesian_eq gb' n), (get_cartesian_eq gb'' n) by auto. cbn [snd].
  rewrite (cchk_keeps gb' n s Hs Hf), (cchk_keeps gb'' n).
  - rewrite (aft_cartrow_ocart gb n) by auto. do 2 eexists. split; [reflexivity|]. split; [reflexivity|].
    split; [apply Hs|]. cbn [ocart t with_cart]. unfold set_row. rewrite <- (l_c n s Hs) in L. revert vs L Eb t H1 H2.
    intros vs L _ _ _ _. revert vs L. induction (ocart s) as [|c l IH]; destruct vs as [|x vs]; cbn; try discriminate; constructor; auto.
    now apply only_set.
  - auto.
  - intros Lz j k Hj. assert (Lz0 : lazy_mode s).
    { apply (settings_lazy_mode s) in Lz; auto. symmetry. transitivity (settings t); [now apply (aft_cartrow_settings gb n)|reflexivity]. }
    unfold aft_cartrow in *. change (odirect t) with (odirect s) in *. rewrite (lazy_mode_direct s Lz0) in *. exact (Hf Lz0 j k Hj).
Qed.
(** [orb.r = v] keeps the velocity, [orb.v = v] the position; missing as above ([C45_stale_r_refuted]) *)
Theorem C74_vectors_partial : forall gb gb' gb'' n v (s s' : orb), lens n s -> wfv v -> (lazy_mode s -> cart_fresh s) ->
  (set_r gb v s = (s', Ok tt) -> snd (get_v gb'' s') = snd (get_v gb' s) /\ exists vs, snd (get_v gb' s) = Ok vs /\ length vs = n)
  /\ (set_v gb v s = (s', Ok tt) -> snd (get_r gb'' s') = snd (get_r gb' s) /\ exists rs, snd (get_r gb' s) = Ok rs /\ length rs = n).
Proof.
  intros gb gb' gb'' n v s s' Hs Hv Hf.
  assert (M : forall (A : Type) (p : six F -> A) (f : six F -> (nat -> F) -> six F) fs l, (forall c x, p (f c x) = p c) -> length fs = length l ->
    map p (map2 f l fs) = map p l).
  { intros A p f fs l P. revert fs. induction l as [|c l IH]; destruct fs as [|x fs]; cbn; try discriminate; auto.
    intros L. rewrite P, IH by lia. reflexivity. }
  assert (G : forall (f : six F -> (nat -> F) -> six F) fs gb1, length fs = n -> let t := with_cart (fun c => map2 f c fs) s in
     lens n (aft_cart gb t) /\ ocart (cchk gb1 (aft_cart gb t)) = map2 f (ocart s) fs).
  { intros f fs gb1 L t. assert (H1 : lens n t) by (apply lens_with_cart; auto; rewrite map2_length, (l_c n s Hs); lia).
    assert (H2 : lens n (aft_cart gb t)) by now apply lens_aft_cart. split; [auto|].
    rewrite (cchk_keeps gb1 n) by (auto; apply (after_cart_fresh gb n); auto). now rewrite (aft_cart_ocart gb n). }
  assert (V : forall g (t : orb), lens n t -> snd (get_v g t) = Ok (map vel_of (ocart (cchk g t)))).
  { intros g t Ht. unfold get_v. destruct (cchk_spec g n t Ht) as [E _]. now rewrite (bind_ok _ _ _ _ _ E). }
  assert (R : forall g (t : orb), lens n t -> snd (get_r g t) = Ok (map pos_of (ocart (cchk g t)))).
  { intros g t Ht. unfold get_r. destruct (cchk_spec g n t Ht) as [E _]. now rewrite (bind_ok _ _ _ _ _ E). }
  split; intros E.
  - rewrite (set_r_eq gb n) in E by auto. destruct (ocro s); [discriminate|].
    destruct (bcast2 3 n v) as [fs|] eqn:Eb; [|discriminate]. injection E as <-.
    assert (L : length fs = n) by (eapply bcast2_length; eauto using wfv_wf). destruct (G set_top fs gb'' L) as [H2 E2].
    rewrite !V, E2, (cchk_keeps gb' n s Hs Hf), M by (auto; destruct Hs; lia || auto). split; [reflexivity|].
    eexists. split; [reflexivity|]. rewrite map_length. apply Hs.
  - rewrite (set_v_eq gb n) in E by auto. destruct (ocro s); [discriminate|].
    destruct (bcast2 3 n v) as [fs|] eqn:Eb; [|discriminate]. injection E as <-.
    assert (L : length fs = n) by (eapply bcast2_length; eauto using wfv_wf). destruct (G set_bot fs gb'' L) as [H2 E2].
    rewrite !R, E2, (cchk_keeps gb' n s Hs Hf), M by (auto; destruct Hs; lia || auto). split; [reflexivity|].
    eexists. split; [reflexivity|]. rewrite map_length. apply Hs.
Qed.
End Frame.

Section Examples.
#[local] Existing Instance NP_toyn.
(** lazy mode, both sides calculated, then [orb.a = 1]: the Kepler side stays calculated *)
Example C74_example : exists s s1 s2, init gd 1000%Z (cfgl "true" 2) (kwd matd) = Ok s /\ s1 = run [(gd, OGetCart)] s
  /\ lens 2 s1 /\ lazy_mode s1 /\ cart_fresh s1 /\ set_kep_row gd 0 (Sc 1%Z) s1 = (s2, Ok tt)
  /\ snd (get_kepler gd s2) = Ok [mk6 1 0 2 3 4 5; mk6 1 0 2 3 4 6]%Z.
Proof.
  eexists _, _, _. split; [vm_compute; reflexivity|]. split; [vm_compute; reflexivity|].
  split; [apply toy_lens; vm_compute; reflexivity|]. split; [now split|].
  split; [intros [|[|]] k Hk; try discriminate Hk; [now left|now left|vm_compute in Hk; destruct n; discriminate Hk]|].
  split; [vm_compute; reflexivity|]. vm_compute; reflexivity.
Qed.
(** Lazy mode, type eccentric.  After [orb.anom = 4] the Cartesian side is stale; [orb.x = 3] makes the Kepler
    side stale too, and reading [cartesian] combines the first five elements with the anomaly of the stale
    state.  Integer arithmetic [NP_toyn]: the control flow is the same in every arithmetic. *)
Definition mat74 : arg Z := fresh [6; 2] [9; 8; 1; 1; 2; 2; 3; 3; 4; 4; 1; 2]%Z.
Theorem C74_stale_refuted : exists s s1 s2 c c' cs cs',
  init gd 1000%Z (cfgl "eccentric" 2) (kwd mat74) = Ok s
  /\ s1 = run [(gd, OGetCart); (gd, OSetKepRow 5 (Sc 4%Z))] s
  /\ set_cart_row gd 0 (Sc 3%Z) s1 = (s2, Ok tt)
  /\ snd (get_cartesian gd s1) = Ok (c :: cs) /\ snd (get_cartesian gd s2) = Ok (c' :: cs')
  /\ ~ only_elements (eq 0) c c'.
Proof.
  eexists _, _, _, _, _, _, _. split; [vm_compute; reflexivity|]. split; [vm_compute; reflexivity|].
  split; [vm_compute; reflexivity|]. split; [vm_compute; reflexivity|]. split; [vm_compute; reflexivity|].
  intros [_ [Q _]]. vm_compute in Q. destruct Q; discriminate.
Qed.
End Examples.
