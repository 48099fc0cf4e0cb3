(** * Closed forms of the Orbit setters, update, add, delete and allocate (any arithmetic) *)
From Coq Require Import List Bool Arith Lia ZArith QArith.
From Verif Require Import NP KeplerModel ConvModel UnitModel OrbitModel Lists ConvCols ArraySpec
  PropsAnomaly OrbitLists OrbitBase OrbitOps.
Import ListNotations.
Local Open Scope nat_scope.

Section Setters.
Context {F : Type} `{NP F}.
Variable gb : nat -> nat -> F.
Notation orb := (orb F).
Notation kchk := (kchk gb).
Notation cchk := (cchk gb).
Notation kall := (kall gb).
Notation call_ := (call_ gb).

Lemma lens_with_cart n f (s : orb) : lens n s -> length (f (ocart s)) = n -> lens n (with_cart f s).
Proof. intros [] ?. constructor; auto. Qed.
Lemma lens_with_kep n f (s : orb) : lens n s -> length (f (okep s)) = n -> lens n (with_kep f s).
Proof. intros [] ?. constructor; auto. Qed.
Lemma lens_with_m n f (s : orb) : lens n s -> length (f (om s)) = n -> lens n (with_m f s).
Proof. intros [] ?. constructor; auto. Qed.
Lemma lens_with_cf n f (s : orb) : lens n s -> length (f (ocf s)) = n -> lens n (with_cf f s).
Proof. intros [] ?. constructor; auto. Qed.
Lemma lens_with_kf n f (s : orb) : lens n s -> length (f (okf s)) = n -> lens n (with_kf f s).
Proof. intros [] ?. constructor; auto. Qed.
Lemma lens_with_nu n f (s : orb) : lens n s -> length (f (onu s)) = n -> lens n (with_nu f s).
Proof. intros [] ?. constructor; auto. Qed.
Lemma lens_with_Ma n f (s : orb) : lens n s -> length (f (oMa s)) = n -> lens n (with_Ma f s).
Proof. intros [] ?. constructor; auto. Qed.
Lemma all_false_length (l : list bool) : length (all_false l) = length l. Proof. apply map_length. Qed.
Lemma all_true_length (l : list bool) : length (all_true l) = length l. Proof. apply map_length. Qed.
Lemma set_row_length k (c : list (six F)) vs : length (set_row k c vs) = Nat.min (length c) (length vs).
Proof. apply map2_length. Qed.

(** what follows a write *)
Definition aft_cartrow (s : orb) : orb := if odirect s then kall s else with_kf all_false s.
Definition aft_keprow (s : orb) : orb := if odirect s then call_ s else with_cf all_false s.
Definition aft_cart (s : orb) : orb := if odirect s then kall s else with_cf all_true (with_kf all_false s).
Definition aft_kep (s : orb) : orb := if odirect s then call_ s else with_kf all_true (with_cf all_false s).
Lemma lens_aft_cartrow n s : lens n s -> lens n (aft_cartrow s).
Proof.
  intros Hs. unfold aft_cartrow. destruct (odirect s); [now apply lens_kall|].
  apply lens_with_kf; auto. rewrite all_false_length. now destruct Hs.
Qed.
Lemma lens_aft_keprow n s : lens n s -> lens n (aft_keprow s).
Proof.
  intros Hs. unfold aft_keprow. destruct (odirect s); [now apply lens_call|].
  apply lens_with_cf; auto. rewrite all_false_length. now destruct Hs.
Qed.
Lemma lens_aft_cart n s : lens n s -> lens n (aft_cart s).
Proof.
  intros Hs. unfold aft_cart. destruct (odirect s); [now apply lens_kall|].
  apply lens_with_cf; [apply lens_with_kf; auto; rewrite all_false_length; now destruct Hs|].
  rewrite all_true_length. now destruct Hs.
Qed.
Lemma lens_aft_kep n s : lens n s -> lens n (aft_kep s).
Proof.
  intros Hs. unfold aft_kep. destruct (odirect s); [now apply lens_call|].
  apply lens_with_kf; [apply lens_with_cf; auto; rewrite all_false_length; now destruct Hs|].
  rewrite all_true_length. now destruct Hs.
Qed.

Lemma tail_cartrow n s : lens n s ->
  bind get (fun s => if odirect s then calculate_kepler gb IAll else modify (with_kf all_false)) s = (aft_cartrow s, Ok tt).
Proof.
  intros Hs. rewrite bind_get. unfold aft_cartrow. destruct (odirect s); [|reflexivity].
  now apply (kall_spec gb n).
Qed.
Lemma tail_keprow n s : lens n s ->
  bind get (fun s => if odirect s then calculate_cartesian gb IAll else modify (with_cf all_false)) s = (aft_keprow s, Ok tt).
Proof.
  intros Hs. rewrite bind_get. unfold aft_keprow. destruct (odirect s); [|reflexivity].
  now apply (call_spec gb n).
Qed.
Lemma after_cart_eq n s : lens n s -> after_cart gb s = (aft_cart s, Ok tt).
Proof.
  intros Hs. unfold after_cart. rewrite bind_get. unfold aft_cart. destruct (odirect s); [|reflexivity].
  now apply (kall_spec gb n).
Qed.
Lemma after_kep_eq n s : lens n s -> after_kep gb s = (aft_kep s, Ok tt).
Proof.
  intros Hs. unfold after_kep. rewrite bind_get. unfold aft_kep. destruct (odirect s); [|reflexivity].
  now apply (call_spec gb n).
Qed.

(** ** Row and whole setters *)
Lemma set_cart_row_eq n k v s : lens n s -> wfv v -> set_cart_row gb k v s =
  if ocro s then (s, Raise AttributeError)
  else match bcast1 n v with
       | Raise e => (s, Raise e)
       | Ok vs => (aft_cartrow (with_cart (fun c => set_row k c vs) s), Ok tt) end.
Proof.
  intros Hs Hv. unfold set_cart_row. rewrite bind_get. destruct (ocro s); [reflexivity|].
  rewrite bind_lift, (l_c n s Hs). destruct (bcast1 n v) as [vs|e] eqn:Eb; [|reflexivity].
  rewrite bind_modify. apply (tail_cartrow n). apply lens_with_cart; auto.
  rewrite set_row_length, (bcast1_length n v vs), (l_c n s Hs); auto using wfv_wf. lia.
Qed.
Lemma set_kep_row_eq n k v s : lens n s -> wfv v -> set_kep_row gb k v s =
  if okro s then (s, Raise AttributeError)
  else match bcast1 n v with
       | Raise e => (s, Raise e)
       | Ok vs => (aft_keprow (with_kep (fun c => set_row k c vs) s), Ok tt) end.
Proof.
  intros Hs Hv. unfold set_kep_row. rewrite bind_get. destruct (okro s); [reflexivity|].
  rewrite bind_lift, (l_k n s Hs). destruct (bcast1 n v) as [vs|e] eqn:Eb; [|reflexivity].
  rewrite bind_modify. apply (tail_keprow n). apply lens_with_kep; auto.
  rewrite set_row_length, (bcast1_length n v vs), (l_k n s Hs); auto using wfv_wf. lia.
Qed.
Lemma set_r_eq n v s : lens n s -> wfv v -> set_r gb v s =
  if ocro s then (s, Raise AttributeError)
  else match bcast2 3 n v with
       | Raise e => (s, Raise e)
       | Ok vs => (aft_cart (with_cart (fun c => map2 set_top c vs) s), Ok tt) end.
Proof.
  intros Hs Hv. unfold set_r. rewrite bind_get. destruct (ocro s); [reflexivity|].
  rewrite bind_lift, (l_c n s Hs). destruct (bcast2 3 n v) as [vs|e] eqn:Eb; [|reflexivity].
  rewrite bind_modify. apply (after_cart_eq n). apply lens_with_cart; auto.
  rewrite map2_length, (bcast2_length 3 n v vs), (l_c n s Hs); auto using wfv_wf. lia.
Qed.
Lemma set_v_eq n v s : lens n s -> wfv v -> set_v gb v s =
  if ocro s then (s, Raise AttributeError)
  else match bcast2 3 n v with
       | Raise e => (s, Raise e)
       | Ok vs => (aft_cart (with_cart (fun c => map2 set_bot c vs) s), Ok tt) end.
Proof.
  intros Hs Hv. unfold set_v. rewrite bind_get. destruct (ocro s); [reflexivity|].
  rewrite bind_lift, (l_c n s Hs). destruct (bcast2 3 n v) as [vs|e] eqn:Eb; [|reflexivity].
  rewrite bind_modify. apply (after_cart_eq n). apply lens_with_cart; auto.
  rewrite map2_length, (bcast2_length 3 n v vs), (l_c n s Hs); auto using wfv_wf. lia.
Qed.
Lemma whole_value_length n (v : arg F) cs : wfv v -> whole_value n v = Ok cs -> length cs = n.
Proof.
  intros Hv. unfold whole_value.
  assert (G : forall w : arg F, wfv w -> forall cs, (rlet cs := bcast2 6 n w in Ok (map six_of cs)) = Ok cs -> length cs = n).
  { intros w Hw cs0. destruct (bcast2 6 n w) eqn:Eb; [|discriminate]. cbn [rbind]. injection 1 as <-.
    rewrite map_length. eapply bcast2_length; eauto using wfv_wf. }
  destruct v as [x|[|k [|]] m d]; [apply G; auto|discriminate| |apply G; auto].
  apply G. cbn in *. lia.
Qed.
Lemma set_cartesian_eq n v s : lens n s -> wfv v -> set_cartesian gb v s =
  if ocro s then (s, Raise AttributeError)
  else match whole_value n v with
       | Raise e => (s, Raise e)
       | Ok cs => (aft_cart (with_cart (fun _ => cs) s), Ok tt) end.
Proof.
  intros Hs Hv. unfold set_cartesian. rewrite bind_get. destruct (ocro s); [reflexivity|].
  rewrite bind_lift, (l_c n s Hs). destruct (whole_value n v) as [cs|e] eqn:Eb; [|reflexivity].
  rewrite bind_modify. apply (after_cart_eq n). apply lens_with_cart; auto.
  eapply whole_value_length; eauto.
Qed.
Lemma set_kepler_eq n v s : lens n s -> wfv v -> set_kepler gb v s =
  if okro s then (s, Raise AttributeError)
  else match whole_value n v with
       | Raise e => (s, Raise e)
       | Ok cs => (aft_kep (with_kep (fun _ => cs) s), Ok tt) end.
Proof.
  intros Hs Hv. unfold set_kepler. rewrite bind_get. destruct (okro s); [reflexivity|].
  rewrite bind_lift, (l_k n s Hs). destruct (whole_value n v) as [cs|e] eqn:Eb; [|reflexivity].
  rewrite bind_modify. apply (after_kep_eq n). apply lens_with_kep; auto.
  eapply whole_value_length; eauto.
Qed.

(** ** Anomaly setters: [w] is the anomaly assigned *)
Definition set_of (w : anomaly) (v : arg F) : M unit :=
  match w with ATrue => set_true_anomaly gb v | AEcc => set_eccentric_anomaly gb v | AMean => set_mean_anomaly gb v end.
Definition base (w : anomaly) (s : orb) : orb := if anomaly_eqb w (otype s) then s else kchk s.
Definition anom_arg (w : anomaly) (s : orb) (v : arg F) : res (arg F) :=
  let e := map (row_get 1) (okep (kchk s)) in
  let ee := fresh [length e] e in
  match w, otype s with
  | ATrue, ATrue | AEcc, AEcc | AMean, AMean => Ok v
  | AEcc, ATrue => eccentric_to_true (gb 27) v ee (odeg s)
  | AEcc, AMean => eccentric_to_mean (gb 27) v ee (odeg s)
  | ATrue, AEcc => true_to_eccentric (gb 27) v ee (odeg s)
  | ATrue, AMean => true_to_mean (gb 27) (gb 28) v ee (odeg s)
  | AMean, ATrue => mean_to_true (gb 27) v ee (oopts s) (odeg s)
  | AMean, AEcc => mean_to_eccentric v ee (oopts s) (odeg s)
  end.
Lemma anom_arg_wf n w s v x : lens n s -> wfv v -> anom_arg w s v = Ok x -> wfv x.
Proof.
  intros Hs Hv. unfold anom_arg. set (e := map _ _).
  assert (He : wfv (fresh [length e] e)) by now apply wfv_fresh1.
  destruct w, (otype s); intros E.
  1,5,9: congruence.
  - exact (t2e_wf _ _ Hv He _ _ _ E).
  - exact (t2m_wf _ _ _ _ _ _ Hv He E).
  - exact (e2t_wf _ _ Hv He _ _ _ E).
  - exact (e2m_wf _ _ Hv He _ _ _ E).
  - exact (m2t_wf _ _ _ _ _ _ Hv He E).
  - exact (m2e_wf _ _ Hv He _ _ _ E).
Qed.
Lemma lens_base n w s : lens n s -> lens n (base w s).
Proof. intros Hs. unfold base. destruct (anomaly_eqb _ _); auto using lens_kchk. Qed.
Lemma base_settings n w s : lens n s -> settings (base w s) = settings s.
Proof. intros Hs. unfold base. destruct (anomaly_eqb _ _); auto. now apply (kchk_settings gb n). Qed.
Lemma conv_set_eq n (f : arg F -> arg F -> res (arg F)) v s : lens n s -> wfv v -> okro s = false ->
  (forall e r, wfv e -> f v e = Ok r -> wfv r) ->
  bind (bind (get_kep_row gb 1) (fun e => bind (lift (f v (fresh [length e] e))) (set_anom gb))) (fun _ => after_anom gb) s =
  match (let e := map (row_get 1) (okep (kchk s)) in f v (fresh [length e] e)) with
  | Raise e => (kchk s, Raise e)
  | Ok x => match bcast1 n x with
            | Raise e => (kchk s, Raise e)
            | Ok vs => (aft_keprow (aft_keprow (with_kep (fun c => set_row 5 c vs) (kchk s))), Ok tt) end end.
Proof.
  intros Hs Hv Ho Hf. rewrite bind_assoc, (get_row_bind gb n) by auto. rewrite bind_assoc, bind_lift. cbv zeta.
  set (e := map _ _). destruct (f v (fresh [length e] e)) as [x|er] eqn:Ef; [|reflexivity].
  assert (Hx : wfv x) by (eapply Hf; [|exact Ef]; now apply wfv_fresh1).
  pose proof (lens_kchk gb n s Hs) as Hl.
  assert (Ho' : okro (kchk s) = false).
  { pose proof (kchk_settings gb n s Hs) as Es. apply settings_eq in Es. destruct Es as [_ [_ [_ [_ [E _]]]]]. congruence. }
  pose proof (set_kep_row_eq n 5 x (kchk s) Hl Hx) as Er. rewrite Ho' in Er.
  destruct (bcast1 n x) as [vs|er] eqn:Eb.
  - unfold set_anom. rewrite (bind_ok _ _ _ _ _ Er). unfold after_anom. apply (tail_keprow n), lens_aft_keprow, lens_with_kep; auto.
    rewrite set_row_length, (bcast1_length n x vs), (l_k n _ Hl); auto using wfv_wf. lia.
  - unfold set_anom. now rewrite (bind_err _ _ _ _ _ Er).
Qed.
Lemma set_of_eq n w v s : lens n s -> wfv v -> set_of w v s =
  if okro s then (s, Raise AttributeError)
  else match anom_arg w s v with
       | Raise e => (base w s, Raise e)
       | Ok x => match bcast1 n x with
                 | Raise e => (base w s, Raise e)
                 | Ok vs => (aft_keprow (aft_keprow (with_kep (fun c => set_row 5 c vs) (base w s))), Ok tt) end end.
Proof.
  intros Hs Hv. 
  assert (G : okro s = false -> bind (set_anom gb v) (fun _ => after_anom gb) s =
    match bcast1 n v with
    | Raise e => (s, Raise e)
    | Ok vs => (aft_keprow (aft_keprow (with_kep (fun c => set_row 5 c vs) s)), Ok tt) end).
  { intros Ho. pose proof (set_kep_row_eq n 5 v s Hs Hv) as Er. rewrite Ho in Er. unfold set_anom.
    destruct (bcast1 n v) as [vs|er] eqn:Eb.
    - rewrite (bind_ok _ _ _ _ _ Er). unfold after_anom. apply (tail_keprow n), lens_aft_keprow, lens_with_kep; auto.
      rewrite set_row_length, (bcast1_length n v vs), (l_k n _ Hs); auto using wfv_wf. lia.
    - now rewrite (bind_err _ _ _ _ _ Er). }
  unfold set_of, anom_arg, base. 
  destruct w; unfold set_true_anomaly, set_eccentric_anomaly, set_mean_anomaly; rewrite bind_get;
    (destruct (okro s) eqn:Ho; [reflexivity|]); destruct (otype s); cbn [anomaly_eqb]; try (now apply G).
  - apply (conv_set_eq n (fun v e => true_to_eccentric (gb 27) v e (odeg s))); auto; intros e r He; now apply t2e_wf.
  - apply (conv_set_eq n (fun v e => true_to_mean (gb 27) (gb 28) v e (odeg s))); auto; intros e r He; now apply t2m_wf.
  - apply (conv_set_eq n (fun v e => eccentric_to_true (gb 27) v e (odeg s))); auto; intros e r He; now apply e2t_wf.
  - apply (conv_set_eq n (fun v e => eccentric_to_mean (gb 27) v e (odeg s))); auto; intros e r He; now apply e2m_wf.
  - apply (conv_set_eq n (fun v e => mean_to_true (gb 27) v e (oopts s) (odeg s))); auto; intros e r He; now apply m2t_wf.
  - apply (conv_set_eq n (fun v e => mean_to_eccentric v e (oopts s) (odeg s))); auto; intros e r He; now apply m2e_wf.
Qed.

(** ** equinoctial, velocity *)
Lemma set_equi_cases n vals s : lens n s ->
  (exists e, set_equinoctial gb vals s = (s, Raise e))
  \/ exists kep' v', length kep' = n /\ wfv v' /\
       set_equinoctial gb vals s = set_mean_anomaly gb v' (with_kep (fun _ => kep') s).
Proof.
  intros Hs. unfold set_equinoctial. rewrite bind_get, bind_lift.
  destruct (equi_to_kep gb vals (odeg s)) as [[| |sh|k|l]|e]; try (left; eexists; reflexivity).
  - right. exists (map (fun c => set_head c k) (okep s)), (Arr [] [0] [s5 k]).
    rewrite map_length. split; [now destruct Hs|]. split; [cbn; auto|]. reflexivity.
  - assert (G : forall x : list (six F), length x = length (okep s) ->
      bind (if Nat.eqb (length x) (length (okep s)) then modify (with_kep (fun c => map2 set_head c x)) else raise ValueError)
           (fun _ => set_mean_anomaly gb (fresh [length x] (map s5 x))) s
      = set_mean_anomaly gb (fresh [length x] (map s5 x)) (with_kep (fun _ => map2 set_head (okep s) x) s)).
    { intros x Hx. rewrite Hx, Nat.eqb_refl. reflexivity. }
    destruct l as [|k [|k2 l]].
    + destruct (Nat.eqb (length (@nil (six F))) (length (okep s))) eqn:El; [|left; now exists ValueError].
      right. apply Nat.eqb_eq in El. eexists _, _. split; [|split; [|reflexivity]].
      * rewrite map2_length, <- El, <- (l_k n s Hs), <- El. reflexivity.
      * cbn. auto.
    + right. exists (map (fun c => set_head c k) (okep s)), (fresh [length [k]] (map s5 [k])).
      rewrite map_length. split; [now destruct Hs|]. split; [now apply wfv_fresh1|]. reflexivity.
    + destruct (Nat.eqb (length (k :: k2 :: l)) (length (okep s))) eqn:El; [|left; now exists ValueError].
      right. apply Nat.eqb_eq in El. eexists _, _. split; [|split; [|reflexivity]].
      * rewrite map2_length, El, (l_k n s Hs). lia.
      * apply wfv_fresh1. now rewrite map_length.
Qed.
Lemma with_cart_id (s : orb) : with_cart (fun _ => ocart s) s = s. Proof. now destruct s. Qed.
Lemma with_kep_id (s : orb) : with_kep (fun _ => okep s) s = s. Proof. now destruct s. Qed.
Lemma with_m_id (s : orb) : with_m (fun _ => om s) s = s. Proof. now destruct s. Qed.

Lemma aft_cart_settings n s : lens n s -> settings (aft_cart s) = settings s.
Proof.
  intros Hs. unfold aft_cart. destruct (odirect s); [|reflexivity].
  destruct (kall_spec gb n s Hs) as [_ [_ E]]. eapply settings_step; eauto.
Qed.
(** the velocities assigned by the velocity setter: [old * (sp / |cur|)] *)
Definition vel_value (old cur : list (six F)) (sp : list F) : list (v3 F) :=
  map2 (fun (u : v3 F) q => (mul (c0 u) q, mul (c1 u) q, mul (c2 u) q)) (map vel_of old)
       (map2 (fun x n => div x n) sp (map vnorm (map vel_of cur))).
Definition vel_fun (u : v3 F) : nat -> F := fun i => nth i [c0 u; c1 u; c2 u] nan.
Lemma bcast2_rows n (new : list (v3 F)) : length new = n ->
  exists vs, bcast2 3 n (fresh [3; n] (map c0 new ++ map c1 new ++ map c2 new)) = Ok vs /\ length vs = n
   /\ forall j u f, nth_error new j = Some u -> nth_error vs j = Some f -> f 0 = c0 u /\ f 1 = c1 u /\ f 2 = c2 u.
Proof.
  intros Hn. cbn [bcast2 fresh]. change (strip_ones [3; n]) with [3; n].
  cbn [Nat.eqb negb]. rewrite Nat.eqb_refl. eexists. split; [reflexivity|].
  rewrite map_length, seq_length. split; [auto|]. intros j u f Hu Hf.
  pose proof (nth_error_lt _ _ _ Hu) as Hj.
  rewrite nth_error_map, (nth_error_nth' _ 0), seq_nth in Hf by (rewrite ?seq_length; lia). cbn in Hf.
  injection Hf as <-.
  assert (G : forall (h : v3 F -> F) pre post i, length pre = i -> nth (i + j) (pre ++ map h new ++ post) nan = h u).
  { intros h pre post0 i <-. rewrite app_nth2_plus, app_nth1 by (rewrite map_length; lia).
    apply nth_error_nth. now rewrite nth_error_map, Hu. }
  split; [exact (G c0 [] _ 0 eq_refl)|]. split.
  - apply (G c1 (map c0 new) _ (n + 0)). rewrite map_length. lia.
  - rewrite app_assoc. rewrite <- (app_nil_r (map c2 new)).
    apply (G c2 (map c0 new ++ map c1 new) [] (n + (n + 0))). rewrite app_length, !map_length. lia.
Qed.
Lemma set_velocity_eq n v s : lens n s -> wfv v -> exists vs : list F -> list (nat -> F),
  set_velocity gb v s =
    (if ocro s then (s, Raise AttributeError)
     else match bcast1 n v with
          | Raise e => (cchk (cchk s), Raise e)
          | Ok sp => (aft_cartrow (aft_cart (with_cart (fun c => map2 set_bot c (vs sp)) (cchk (cchk s)))), Ok tt) end)
  /\ (forall sp, length sp = n -> length (vs sp) = n /\
       forall j u f, nth_error (vel_value (ocart (cchk s)) (ocart (cchk (cchk s))) sp) j = Some u ->
         nth_error (vs sp) j = Some f -> f 0 = c0 u /\ f 1 = c1 u /\ f 2 = c2 u).
Proof.
  intros Hs Hv. pose proof (lens_cchk gb n s Hs) as H1. pose proof (lens_cchk gb n _ H1) as H2.
  exists (fun sp => match bcast2 3 n (let new := vel_value (ocart (cchk s)) (ocart (cchk (cchk s))) sp in
             fresh [3; n] (map c0 new ++ map c1 new ++ map c2 new)) with Ok vs => vs | Raise _ => [] end).
  assert (Lnew : forall sp, length sp = n -> length (vel_value (ocart (cchk s)) (ocart (cchk (cchk s))) sp) = n).
  { intros sp Hl. unfold vel_value. rewrite map2_length, map2_length, !map_length.
    rewrite (l_c n _ H1), (l_c n _ H2). lia. }
  split.
  2:{ intros sp Hl. cbv zeta. destruct (bcast2_rows n _ (Lnew sp Hl)) as [vs [-> [L1 L2]]]. auto. }
  unfold set_velocity. rewrite bind_get. destruct (ocro s) eqn:Eo; [reflexivity|].
  assert (Gv : forall s, lens n s -> get_v gb s = (cchk s, Ok (map vel_of (ocart (cchk s))))).
  { intros s0 H0. unfold get_v. destruct (cchk_spec gb n s0 H0) as [E _]. now rewrite (bind_ok _ _ _ _ _ E). }
  rewrite (bind_ok _ _ _ _ _ (Gv s Hs)), (bind_ok _ _ _ _ _ (Gv _ H1)), bind_lift.
  rewrite map_length, (l_c n _ H1). destruct (bcast1 n v) as [sp|e] eqn:Eb; [|reflexivity]. cbv zeta.
  assert (Lsp : length sp = n) by (eapply bcast1_length; eauto using wfv_wf).
  change (map2 _ (map vel_of (ocart (cchk s))) _) with (vel_value (ocart (cchk s)) (ocart (cchk (cchk s))) sp).
  match goal with |- context [@length ?T (vel_value ?a ?b sp)] =>
    replace (@length T (vel_value a b sp)) with n by (symmetry; exact (Lnew sp Lsp)) end.
  destruct (bcast2_rows n _ (Lnew sp Lsp)) as [vs [Ev [L1 L2]]].
  assert (Eo2 : ocro (cchk (cchk s)) = false).
  { destruct (cchk_spec gb n s Hs) as [_ E1]. destruct (cchk_spec gb n _ H1) as [_ E2].
    apply settings_step, settings_eq in E1. apply settings_step, settings_eq in E2. intuition congruence. }
  set (W := fresh [3; n] _) in *.
  assert (HW : wfv W).
  { apply wfv_fresh. rewrite !app_length, !map_length, (Lnew sp Lsp). cbn. lia. }
  pose proof (set_v_eq n W _ H2 HW) as Es. rewrite Eo2, Ev in Es. rewrite (bind_ok _ _ _ _ _ Es), Ev.
  apply (tail_cartrow n). apply lens_aft_cart, lens_with_cart; auto. rewrite map2_length, L1, (l_c n _ H2). lia.
Qed.

(** ** Containers *)
Definition del_state (ps : list nat) (s : orb) : orb :=
  mkorb (oM0 s) (oG s) (oauto s) (odirect s) (okro s) (ocro s) (odeg s) (otype s) (oopts s)
        (delete_at ps (om s)) (delete_at ps (ocart s)) (delete_at ps (okep s)) (delete_at ps (onu s))
        (fresh [length (delete_at ps (adata (oE s)))] (delete_at ps (adata (oE s)))) (delete_at ps (oMa s))
        (delete_at ps (ocf s)) (delete_at ps (okf s)) (oit s).
Lemma delete_eq n inds s : aligned n s -> delete inds s =
  match resolve_del n inds with Raise e => (s, Raise e) | Ok ps => (del_state ps s, Ok tt) end.
Proof.
  intros [[L1 L2 L3 L4 L5 L6 L7] [d [HE Ld]]]. unfold delete. rewrite bind_get, bind_lift. unfold del at 1.
  rewrite L1. destruct (resolve_del n inds) as [ps|e] eqn:Er; [|reflexivity]. cbn [rbind].
  rewrite bind_modify, bind_lift. unfold del at 1. rewrite L2, Er. cbn [rbind].
  rewrite bind_modify, bind_lift. unfold del at 1. rewrite L3, Er. cbn [rbind].
  rewrite bind_modify, bind_lift. unfold del at 1. rewrite L4, Er. cbn [rbind].
  rewrite bind_modify, bind_lift. unfold del_arg. rewrite HE. cbn [fresh]. rewrite Ld, Er. cbn [rbind].
  rewrite bind_modify, bind_lift. unfold del at 1. rewrite L5, Er. cbn [rbind].
  rewrite bind_modify, bind_lift. unfold del at 1. rewrite L6, Er. cbn [rbind].
  rewrite bind_modify, bind_lift. unfold del at 1. rewrite L7, Er. cbn [rbind].
  unfold modify, del_state. rewrite HE. cbn. reflexivity.
Qed.
Lemma del_aligned n ps s : aligned n s -> aligned (length (delete_at ps (om s))) (del_state ps s).
Proof.
  intros [[L1 L2 L3 L4 L5 L6 L7] [d [HE Ld]]]. split.
  - constructor; cbn; auto; apply delete_at_length; congruence.
  - exists (delete_at ps d). cbn. rewrite HE. cbn [fresh adata].
    assert (E : length (delete_at ps d) = length (delete_at ps (om s))) by (apply delete_at_length; congruence).
    split; [|auto]. now rewrite E.
Qed.
Lemma del_col n ps s j c k m cb kb : lens n s -> col (del_state ps s) j c k m cb kb ->
  exists i, col s i c k m cb kb.
Proof.
  intros [L1 L2 L3 L4 L5 L6 L7] [C1 C2 C3 C4 C5].
  cbn [del_state ocart okep om ocf okf] in C1, C2, C3, C4, C5.
  set (q := filter (fun j => negb (mem j ps)) (seq 0 n)).
  assert (Hb : bounded n q). { intros p Hp. apply filter_In in Hp. destruct Hp as [Hp _]. apply in_seq in Hp. lia. }
  rewrite delete_at_keep in C1. rewrite delete_at_keep in C2. rewrite delete_at_keep in C3.
  rewrite delete_at_keep in C4. rewrite delete_at_keep in C5. rewrite L2 in C1. rewrite L3 in C2. rewrite L1 in C3.
  rewrite L6 in C4. rewrite L7 in C5. fold q in C1, C2, C3, C4, C5.
  rewrite pick_nth in C1 by now rewrite L2. rewrite pick_nth in C2 by now rewrite L3.
  rewrite pick_nth in C3 by now rewrite L1. rewrite pick_nth in C4 by now rewrite L6. rewrite pick_nth in C5 by now rewrite L7.
  destruct (nth_error q j) as [i|]; [|discriminate]. exists i. now constructor.
Qed.
Definition app_state (k : nat) (s : orb) : orb :=
  mkorb (oM0 s) (oG s) (oauto s) (odirect s) (okro s) (ocro s) (odeg s) (otype s) (oopts s)
        (om s ++ repeat (lit 0) k) (ocart s ++ repeat nan6c k) (okep s ++ repeat nan6c k)
        (onu s ++ repeat nan k) (fresh [length (adata (oE s)) + k] (adata (oE s) ++ repeat nan k))
        (oMa s ++ repeat nan k) (ocf s ++ repeat false k) (okf s ++ repeat false k) (oit s).
Lemma app_aligned n k s : aligned n s -> aligned (n + k) (app_state k s).
Proof.
  intros [[L1 L2 L3 L4 L5 L6 L7] [d [HE Ld]]]. split.
  - constructor; cbn; rewrite app_length, repeat_length; congruence.
  - exists (d ++ repeat nan k). cbn. rewrite HE. cbn [fresh adata]. rewrite Ld.
    split; [reflexivity|]. rewrite app_length, repeat_length. congruence.
Qed.
Lemma add_eq n k kw s : aligned n s -> add_orbits gb k kw s =
  match kw_m kw with
  | None => update gb (IRange n (n + k)) (drop_m kw) (app_state k s)
  | Some v => match assign (om s ++ repeat (lit 0) k) (IRange n (n + k)) v with
              | Raise e => (app_state k s, Raise e)
              | Ok row => update gb (IRange n (n + k)) (drop_m kw) (with_m (fun _ => row) (app_state k s)) end
  end.
Proof.
  intros [[L1 L2 L3 L4 L5 L6 L7] [d [HE Ld]]]. unfold add_orbits. rewrite bind_get. cbv zeta. unfold num. rewrite L3.
  rewrite !bind_modify, HE. cbn [fresh]. rewrite bind_modify, !bind_modify.
  match goal with |- bind _ _ ?st = _ => assert (E : st = app_state k s) by (unfold app_state; rewrite HE; reflexivity) end.
  rewrite E. clear E. destruct (kw_m kw) as [v|].
  - rewrite bind_assoc, bind_get, bind_assoc, bind_lift. cbn [om app_state].
    destruct (assign _ _ _); reflexivity.
  - reflexivity.
Qed.
Lemma app_col n k s j c ke m cb kb : lens n s -> col (app_state k s) j c ke m cb kb ->
  (j < n /\ col s j c ke m cb kb) \/ (n <= j /\ c = nan6c /\ ke = nan6c /\ cb = false /\ kb = false).
Proof.
  intros Hs [C1 C2 C3 C4 C5]. cbn in *. destruct (lt_dec j n) as [Hj|Hj].
  - left. split; auto. destruct Hs.
    rewrite nth_error_app1 in C1 by lia. rewrite nth_error_app1 in C2 by lia. rewrite nth_error_app1 in C3 by lia.
    rewrite nth_error_app1 in C4 by lia. rewrite nth_error_app1 in C5 by lia. now constructor.
  - right. split; [lia|]. destruct Hs.
    assert (G : forall A (l : list A) x y, length l = n -> nth_error (l ++ repeat x k) j = Some y -> y = x).
    { intros A l x y Hl Hy. rewrite nth_error_app2 in Hy by lia. apply nth_error_In, repeat_spec in Hy. auto. }
    split; [eapply (G _ (ocart s)); eauto|]. split; [eapply (G _ (okep s)); eauto|].
    split; [eapply (G _ (ocf s)); eauto|eapply (G _ (okf s)); eauto].
Qed.

(** ** update *)
Definition aft_cart_at (ps : list nat) (s : orb) : orb :=
  if odirect s then kall s
  else with_cf (put ps (repeat true (length ps))) (with_kf (put ps (repeat false (length ps))) s).
Definition aft_kep_at (ps : list nat) (s : orb) : orb :=
  if odirect s then call_ s
  else with_kf (put ps (repeat true (length ps))) (with_cf (put ps (repeat false (length ps))) s).
Lemma mark_cart_eq n inds ps s : lens n s -> resolve n inds = Ok ps -> mark_cart gb inds s = (aft_cart_at ps s, Ok tt).
Proof.
  intros Hs Hr. unfold mark_cart, aft_cart_at. rewrite bind_get. destruct (odirect s).
  - now apply (kall_spec gb n).
  - unfold flag. rewrite bind_lift, (l_kf n s Hs), Hr. cbn [rbind].
    rewrite bind_modify, bind_lift. cbn [ocf with_kf]. rewrite (l_cf n s Hs), Hr. reflexivity.
Qed.
Lemma mark_kep_eq n inds ps s : lens n s -> resolve n inds = Ok ps -> mark_kep gb inds s = (aft_kep_at ps s, Ok tt).
Proof.
  intros Hs Hr. unfold mark_kep, aft_kep_at. rewrite bind_get. destruct (odirect s).
  - now apply (call_spec gb n).
  - unfold flag. rewrite bind_lift, (l_cf n s Hs), Hr. cbn [rbind].
    rewrite bind_modify, bind_lift. cbn [okf with_cf]. rewrite (l_kf n s Hs), Hr. reflexivity.
Qed.
Definition same_out {A} (ps : list nat) (l l' : list A) : Prop := forall j, ~ In j ps -> nth_error l' j = nth_error l j.
Lemma assign_cols_spec (cols cs : list (six F)) inds v : assign_cols cols inds v = Ok cs ->
  exists ps, resolve (length cols) inds = Ok ps /\ length cs = length cols /\ same_out ps cols cs.
Proof.
  unfold assign_cols. destruct (resolve _ inds) as [ps|]; [|discriminate]. cbn [rbind]. intros E.
  exists ps. split; [auto|].
  assert (exists vs, cs = put ps vs cols) as [vs ->].
  { destruct inds; cbn [rbind] in E;
      [destruct (bcast2 _ _ v)|destruct (bcast2 _ _ v)|destruct (bcast1 _ v)|destruct (bcast2 _ _ v)|destruct (bcast2 _ _ v)|destruct (bcast2 _ _ v)];
      cbn [rbind] in E; try discriminate; eexists; symmetry; injection E as E; exact E. }
  split; [apply put_length|]. intros j Hj. now apply put_other.
Qed.
Lemma row_set_get k (c : six F) : row_set k c (row_get k c) = c.
Proof. destruct c; do 6 (destruct k as [|k]; [reflexivity|]); reflexivity. Qed.
Lemma assign_row_spec k (cols cs : list (six F)) inds v : assign_row k cols inds v = Ok cs ->
  exists ps, resolve (length cols) inds = Ok ps /\ length cs = length cols /\ same_out ps cols cs.
Proof.
  unfold assign_row, assign. rewrite map_length. destruct (resolve _ inds) as [ps|]; [|discriminate]. cbn [rbind].
  destruct (bcast1 _ v) as [vs|]; [|discriminate]. cbn [rbind]. injection 1 as <-.
  exists ps. split; [auto|]. split.
  - rewrite set_row_length, put_length, map_length. lia.
  - intros j Hj. unfold set_row. rewrite nth_error_map2, put_other by auto. rewrite nth_error_map.
    destruct (nth_error cols j); cbn; auto. now rewrite row_set_get.
Qed.
Lemma assign_keys_spec ks : forall (cols cs : list (six F)) inds r, assign_keys ks cols inds = (cs, r) ->
  length cs = length cols
  /\ (cs = cols \/ exists ps, resolve (length cols) inds = Ok ps /\ same_out ps cols cs)
  /\ (r = Ok tt -> existsb (fun x => is_some (snd x)) ks = true -> exists ps, resolve (length cols) inds = Ok ps).
Proof.
  induction ks as [|[k [v|]] ks IH]; intros cols cs inds r E; cbn [assign_keys] in E.
  - injection E as <- <-. split; [auto|]. split; [auto|]. discriminate.
  - destruct (assign_row k cols inds v) as [cols'|e] eqn:Ea.
    + apply assign_row_spec in Ea. destruct Ea as [ps [Hp [L1 S1]]].
      apply IH in E. destruct E as [L2 [E2 _]]. rewrite L1 in *. split; [auto|]. split; [|eauto].
      right. exists ps. split; [auto|]. destruct E2 as [->|[ps' [Hp' S2]]]; [auto|].
      intros j Hj. rewrite S2 by congruence. auto.
    + injection E as <- <-. split; [auto|]. split; [auto|]. discriminate.
  - apply IH in E. exact E.
Qed.
Lemma some6_keys {A} (c : six (option A)) : some6 c = existsb (fun x => is_some (snd x)) (keys c).
Proof. unfold some6, keys. cbn. now rewrite orb_false_r, !orb_assoc. Qed.
Inductive update_result (n : nat) (inds : Idx) (kw : kws F) (s : orb) (m' : list F) : orb * res unit -> Prop :=
| UNone e : m' = om s -> update_result n inds kw s m' (s, Raise e)
| UMass : kw_cartesian kw = None -> kw_kepler kw = None ->
    update_result n inds kw s m' (with_m (fun _ => m') s, Ok tt)
| UCart cs ps : length cs = n -> resolve n inds = Ok ps -> same_out ps (ocart s) cs -> ocro s = false ->
    update_result n inds kw s m' (aft_cart_at ps (with_cart (fun _ => cs) (with_m (fun _ => m') s)), Ok tt)
| UCartFail cs e : length cs = n -> ocro s = false ->
    (cs = ocart s \/ exists ps, resolve n inds = Ok ps /\ same_out ps (ocart s) cs) ->
    update_result n inds kw s m' (with_cart (fun _ => cs) (with_m (fun _ => m') s), Raise e)
| UKep cs ps : length cs = n -> resolve n inds = Ok ps -> same_out ps (okep s) cs -> okro s = false ->
    update_result n inds kw s m' (aft_kep_at ps (with_kep (fun _ => cs) (with_m (fun _ => m') s)), Ok tt)
| UKepFail cs e : length cs = n -> okro s = false ->
    (cs = okep s \/ exists ps, resolve n inds = Ok ps /\ same_out ps (okep s) cs) ->
    update_result n inds kw s m' (with_kep (fun _ => cs) (with_m (fun _ => m') s), Raise e).
Lemma update_cases n inds kw s : lens n s -> exists m', length m' = n
  /\ (kw_m kw = None \/ odirect s = true -> m' = om s)
  /\ (forall ps, resolve n inds = Ok ps -> same_out ps (om s) m')
  /\ update_result n inds kw s m' (update gb inds kw s).
Proof.
  intros Hs. unfold update. rewrite bind_get.
  assert (Refl : length (om s) = n /\ (kw_m kw = None \/ odirect s = true -> om s = om s)
     /\ (forall ps, resolve n inds = Ok ps -> same_out ps (om s) (om s))).
  { split; [now destruct Hs|]. split; [auto|]. intros ps _ j _. auto. }
  destruct (kw_cartesian kw) as [v|] eqn:Ec.
  { exists (om s). destruct Refl as [R1 [R2 R3]]. split; [auto|]. split; [auto|]. split; [auto|].
    destruct (ocro s) eqn:Eo; [now apply UNone|]. rewrite bind_lift.
    destruct (assign_cols (ocart s) inds v) as [cs|e] eqn:Ea; [|now apply UNone].
    apply assign_cols_spec in Ea. destruct Ea as [ps [Hp [L1 S1]]]. rewrite (l_c n s Hs) in *.
    rewrite bind_modify, (mark_cart_eq n inds ps); auto.
    - rewrite <- (with_m_id s) at 2. now apply UCart.
    - now apply lens_with_cart. }
  destruct (kw_kepler kw) as [v|] eqn:Ek.
  { exists (om s). destruct Refl as [R1 [R2 R3]]. split; [auto|]. split; [auto|]. split; [auto|].
    destruct (okro s) eqn:Eo; [now apply UNone|]. rewrite bind_lift.
    destruct (assign_cols (okep s) inds v) as [cs|e] eqn:Ea; [|now apply UNone].
    apply assign_cols_spec in Ea. destruct Ea as [ps [Hp [L1 S1]]]. rewrite (l_k n s Hs) in *.
    rewrite bind_modify, (mark_kep_eq n inds ps); auto.
    - rewrite <- (with_m_id s) at 2. now apply UKep.
    - now apply lens_with_kep. }
  cbv zeta.
  assert (Refl' : forall r, update_result n inds kw s (om s) r -> exists m', length m' = n
    /\ (kw_m kw = None \/ odirect s = true -> m' = om s)
    /\ (forall ps, resolve n inds = Ok ps -> same_out ps (om s) m')
    /\ update_result n inds kw s m' r) by (intros; exists (om s); tauto).
  destruct (some6 (kw_c kw) && ocro s) eqn:E1; [apply Refl'; now apply UNone|].
  destruct (some6 (kw_k kw) && okro s) eqn:E2; [apply Refl'; now apply UNone|].
  destruct (some6 (kw_k kw) && some6 (kw_c kw)) eqn:E3; [apply Refl'; now apply UNone|].
  assert (Rest : forall m', length m' = n ->
     update_result n inds kw s m'
       (bind (if some6 (kw_c kw) then bind (fun s => let '(cs, r) := assign_keys (keys (kw_c kw)) (ocart s) inds in
                     (with_cart (fun _ => cs) s, r)) (fun _ => mark_cart gb inds) else ret tt)
         (fun _ => if some6 (kw_k kw) then bind (fun s => let '(cs, r) := assign_keys (keys (kw_k kw)) (okep s) inds in
                     (with_kep (fun _ => cs) s, r)) (fun _ => mark_kep gb inds) else ret tt) (with_m (fun _ => m') s))).
  { intros m' Lm. set (sm := with_m (fun _ => m') s). assert (Hsm : lens n sm) by now apply lens_with_m.
    destruct (some6 (kw_c kw)) eqn:Sc.
    - destruct (some6 (kw_k kw)) eqn:Sk; [discriminate|].
      destruct (ocro s) eqn:Eo; [discriminate|].
      rewrite bind_assoc. unfold bind at 1. destruct (assign_keys (keys (kw_c kw)) (ocart sm) inds) as [cs r] eqn:Ea.
      apply assign_keys_spec in Ea. destruct Ea as [L1 [S1 Q]]. change (ocart sm) with (ocart s) in *.
      rewrite (l_c n s Hs) in *. destruct r as [[]|e].
      + rewrite <- some6_keys in Q. destruct (Q eq_refl Sc) as [ps Hp].
        rewrite (bind_ok _ _ _ _ _ (mark_cart_eq n inds ps (with_cart (fun _ => cs) sm) (lens_with_cart n (fun _ => cs) sm Hsm L1) Hp)).
        apply UCart; auto. destruct S1 as [->|[ps' [Hp' S1]]]; [now intros j _|assert (ps' = ps) as -> by congruence; exact S1].
      + apply UCartFail; auto.
    - rewrite bind_ret. destruct (some6 (kw_k kw)) eqn:Sk; [|now apply UMass].
      destruct (okro s) eqn:Eo; [discriminate|].
      unfold bind at 1. destruct (assign_keys (keys (kw_k kw)) (okep sm) inds) as [cs r] eqn:Ea.
      apply assign_keys_spec in Ea. destruct Ea as [L1 [S1 Q]]. change (okep sm) with (okep s) in *.
      rewrite (l_k n s Hs) in *. destruct r as [[]|e].
      + rewrite <- some6_keys in Q. destruct (Q eq_refl Sk) as [ps Hp].
        rewrite (mark_kep_eq n inds ps (with_kep (fun _ => cs) sm) (lens_with_kep n (fun _ => cs) sm Hsm L1) Hp).
        apply UKep; auto. destruct S1 as [->|[ps' [Hp' S1]]]; [now intros j _|assert (ps' = ps) as -> by congruence; exact S1].
      + apply UKepFail; auto. }
  destruct (kw_m kw) as [v|] eqn:Em.
  - destruct (odirect s) eqn:Ed; [rewrite bind_raise; apply Refl'; now apply UNone|].
    rewrite bind_assoc, bind_lift. destruct (assign (om s) inds v) as [row|e] eqn:Ea; [|apply Refl'; now apply UNone].
    rewrite bind_modify. exists row. split; [apply assign_length in Ea; destruct Hs; congruence|].
    split; [intros [|]; discriminate|]. split.
    + intros ps Hp. unfold assign in Ea. rewrite (l_m n s Hs), Hp in Ea. cbn [rbind] in Ea.
      destruct (bcast1 _ v); [|discriminate]. cbn [rbind] in Ea. injection Ea as <-. intros j Hj. now apply put_other.
    + apply Rest. apply assign_length in Ea. destruct Hs; congruence.
  - rewrite bind_ret. apply Refl'. rewrite <- (with_m_id s) at 3. apply Rest. now destruct Hs.
Qed.
End Setters.
