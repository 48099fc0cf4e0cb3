(** * Properties of the anomaly conversions that hold for every arithmetic:
    C18 (solver loop), C24 (element-wise arrays). *)
From Coq Require Import List Bool Arith Lia ZArith QArith.
From Verif Require Import NP KeplerModel ConvModel Lists ArraySpec NPToy.
Import ListNotations.

Section Generic.
Context {F : Type} `{NP F}.
Local Open Scope np_scope.

(** ** C18 *)
Lemma iter_succ_r {A} (f : A -> A) n x : Nat.iter (S n) f x = Nat.iter n f (f x).
Proof. 
  induction n as [|n IH]; [reflexivity|].
  change (f (Nat.iter (S n) f x) = f (Nat.iter n f (f x))). now rewrite IH.
Qed.

Section Solver.
Variables (M e : F) (o : solver_options F).
Let unsolved (E : F) : bool := nabs (lag_f M e E) >=? tol o.
Let next (E : F) : F := lag_step e o E (lag_f M e E).

Lemma lag_loop_spec fuel : forall E it,
  (max_iter o - it < Z.of_nat fuel)%Z -> (0 < fuel)%nat ->
  exists k, 
    let E' := Nat.iter k next E in
    lag_loop M e o fuel E (lag_f M e E) it = Some (E', (it + Z.of_nat k)%Z)
    /\ (forall j, (j < k)%nat -> unsolved (Nat.iter j next E) = true)
    /\ (k = 0%nat \/ (it + Z.of_nat k <= Z.max (it + 1) (max_iter o))%Z)
    /\ (unsolved E' = false \/ (k <> 0%nat /\ it + Z.of_nat k >= max_iter o)%Z).
Proof.
  induction fuel as [|fuel IH]; intros E it Hf Hp; [lia|]; cbn [lag_loop];
    fold (unsolved E); destruct (unsolved E) eqn:U.
  2: exists 0%nat; cbn; rewrite Z.add_0_r; repeat split; auto; lia.
  - fold (next E). destruct (it + 1 >=? max_iter o)%Z eqn:G.
    + exists 1%nat. cbn. repeat split; auto.
      * intros j Hj. assert (j = 0)%nat as -> by lia. exact U.
      * right. lia.
      * right. lia.
    + destruct (IH (next E) (it + 1)%Z) as [k [E1 [E2 [E3 E4]]]]; [lia|lia|].
      exists (S k). cbv zeta in *.
      assert (Hit : Nat.iter (S k) next E = Nat.iter k next (next E)).
      { apply iter_succ_r. }
      rewrite Hit. repeat split.
      * rewrite E1. f_equal. f_equal. lia.
      * intros [|j] Hj; [exact U|].
        assert (Hit' : Nat.iter (S j) next E = Nat.iter j next (next E)).
        { apply iter_succ_r. }
        rewrite Hit'. apply E2. lia.
      * right. destruct E3 as [->|]; lia.
      * destruct E4 as [|[? ?]]; [auto|right; lia].
Qed.
End Solver.

(** The solver always stops (the fuel of the model never runs out), after at most
    max(1, max_iter) iterations; its result is the [it]-fold iterate of the step started at
    the guess, every earlier iterate failed the residual test, and if [it] < max_iter the
    returned value passes it. *)
Theorem C18_laguerre_terminates : forall (E0 M e : F) (o : solver_options F),
  let unsolved E := nabs (lag_f M e E) >=? tol o in
  let next E := lag_step e o E (lag_f M e E) in
  exists k,
    let E := Nat.iter k next E0 in
    laguerre_solve_kepler_opt E0 M e o = Some (E, Z.of_nat k)
    /\ laguerre_solve_kepler E0 M e o = (E, Z.of_nat k)
    /\ (Z.of_nat k <= Z.max 1 (max_iter o))%Z
    /\ (forall j, (j < k)%nat -> unsolved (Nat.iter j next E0) = true)
    /\ ((Z.of_nat k < max_iter o)%Z -> unsolved E = false)
    /\ (unsolved E0 = false -> k = 0%nat).
Proof.
  intros E0 M e o unsolved next.
  destruct (lag_loop_spec M e o (lag_fuel o) E0 0%Z) as [k [E1 [E2 [E3 E4]]]].
  1,2: unfold lag_fuel; lia.
  exists k. cbv zeta in *. cbn [Z.add] in *.
  assert (E5 : laguerre_solve_kepler_opt E0 M e o = Some (Nat.iter k next E0, Z.of_nat k)).
  { exact E1. }
  repeat split; auto.
  - unfold laguerre_solve_kepler. now rewrite E5.
  - destruct E3 as [->|]; lia.
  - intros Hk. destruct E4 as [|[? ?]]; [auto|lia].
  - intros U. destruct k as [|k]; auto. specialize (E2 0%nat ltac:(lia)). cbn in E2.
    unfold unsolved in U. congruence.
Qed.

(** ** C24 *)
Lemma shape_eqb_eq a b : shape_eqb a b = true <-> a = b.
Proof.
  revert b; induction a as [|x a IH]; destruct b as [|y b]; cbn; try easy.
  rewrite andb_true_iff, Nat.eqb_eq, IH. split; [intros [-> ->]; auto|injection 1; auto].
Qed.

Lemma by_masks_map2 g fh fp fe : forall dx de : list F,
  length dx = length de -> (forall v, In v de -> ordered1 v) ->
  by_masks g fh fp fe dx de = map2 (by_cases fh fp fe) dx de.
Proof.
  intros dx de Hl Ho.
  rewrite <- (tag_map2 dx de Hl). unfold by_masks, hyp_of, per_of, eli_of.
  rewrite (tag_empty dx de Hl).
  pose proof (tag_col dx de Hl) as Hc. pose proof (tag_snd dx de Hl) as Hm.
  assert (HL : forall t, In t (tag dx de) -> ordered1 (snd (snd t))).
  { intros t Ht. apply Ho. rewrite <- Hm. now apply (in_map (fun t => snd (snd t))). }
  remember (tag dx de) as L eqn:EL; clear EL.
  rewrite <- Hc, <- Hm, !map_map. cbv zeta.
  rewrite !mget_map, !map2_map, !mset_map. apply map_ext_in.
  intros t Ht. specialize (HL t Ht). unfold ordered1 in HL. unfold by_cases.
  destruct (ltb (lit 1) _), (eqb _ (lit 1)), (ltb _ (lit 1)); easy.
Qed.

Lemma amap_entries f (x : arg F) : entries (amap f x) = map f (entries x).
Proof. destruct x as [v|[|? [|]] m [|v [|]]]; reflexivity. Qed.
Lemma amap_shape f (x : arg F) : shape_of (amap f x) = shape_of x.
Proof. destruct x as [v|[|? [|]] m [|v [|]]]; reflexivity. Qed.
Lemma amap_sc (f : F -> F) x : amap f (Sc x) = Sc (f x).
Proof. reflexivity. Qed.
Lemma amap_wf f (x : arg F) : wf_arg x -> wf_arg (amap f x).
Proof.
  destruct x as [v|s m d]; cbn; auto.
  destruct s as [|n [|n' s]]; [destruct d as [|v [|]]| |]; cbn; rewrite ?map_length; auto.
Qed.
Lemma amap_corder f (x : arg F) : c_order x -> c_order (amap f x).
Proof.
  destruct x as [v|s m d]; cbn; auto.
  destruct s as [|n [|n' s]]; [destruct d as [|v [|]]| |]; cbn; rewrite ?map_length; auto.
Qed.

(** the broadcast pair as two lists *)
Definition dat (x : arg F) (n : nat) : list F := match x with Sc v => repeat v n | Arr _ _ d => d end.
Definition mem_of (x : arg F) (n : nat) : list nat := match x with Sc v => seq 0 n | Arr _ m _ => m end.
Lemma broadcast_arr x e : wf_arg x -> wf_arg e -> compatible x e ->
  (is_arr x || is_arr e = true) ->
  let n := size (joint_shape x e) in
  broadcast x e = Ok (PArr (joint_shape x e) (mem_of x n) (dat x n) (mem_of e n) (dat e n))
  /\ length (dat x n) = n /\ length (dat e n) = n.
Proof.
  assert (R : forall (v : F) (d : list F), map (fun _ => v) d = repeat v (length d)).
  { intros v d. induction d; cbn; congruence. }
  destruct x as [v|s m d], e as [w|s' m' d']; cbn; intros Hx He Hc Ha; try discriminate.
  - rewrite R, He, repeat_length. auto.
  - rewrite R, Hx, repeat_length. auto.
  - subst s'. rewrite Hx, He.
    assert (shape_eqb s s = true) as -> by now apply shape_eqb_eq. auto.
Qed.
Lemma dat_at x n j v : at_ x j = Some v -> (j < n)%nat -> nth_error (dat x n) j = Some v.
Proof. destruct x; cbn; auto. injection 1 as ->. intros. now apply nth_error_repeat. Qed.


Lemma at_in (x : arg F) j v : at_ x j = Some v -> In v (entries x).
Proof. destruct x; cbn; [injection 1; auto|apply nth_error_In]. Qed.

(** a call that is [k] on floats and [map2 k] on arrays is element-wise *)
Lemma elementwise_kernel (f : arg F -> arg F -> res (arg F)) k x e :
  wf_arg x -> wf_arg e -> compatible x e ->
  (forall a b, In a (entries x) -> In b (entries e) -> f (Sc a) (Sc b) = Ok (Sc (k a b))) ->
  (is_arr x || is_arr e = true ->
   forall n, n = size (joint_shape x e) ->
   f x e = Ok (fresh (joint_shape x e) (map2 k (dat x n) (dat e n)))) ->
  elementwise f x e.
Proof.
  intros Hx He Hc Hs Ha. destruct (is_arr x || is_arr e) eqn:A.
  - destruct (broadcast_arr x e Hx He Hc A) as [_ [L1 L2]].
    eexists. split; [apply Ha; auto|]. cbn [fresh shape_of entries].
    rewrite map2_length, L1, L2, Nat.min_id. repeat split; auto.
    intros j xj ej Hxj Hej Hj. exists (k xj ej). split.
    + apply Hs; eapply at_in; eauto.
    + rewrite nth_error_map2, (dat_at x _ j xj), (dat_at e _ j ej); auto.
  - apply orb_false_iff in A. destruct x as [a|], e as [b|]; try (cbn in A; easy).
    cbn in Hs. exists (Sc (k a b)). rewrite Hs by auto. cbn. repeat split; auto.
    intros j xj ej. injection 1 as <-. injection 1 as <-. intros Hj.
    exists (k a b). rewrite Hs by auto. split; auto.
    assert (j = 0)%nat as -> by lia. reflexivity.
Qed.
Lemma elementwise_post f h (x e : arg F) : elementwise f x e ->
  elementwise (fun x e => rlet r := f x e in Ok (amap h r)) x e.
Proof.
  intros [r [E1 [E2 [E3 E4]]]]. exists (amap h r). rewrite E1. cbn [rbind].
  rewrite amap_shape, amap_entries, map_length. repeat split; auto.
  intros j xj ej Hx He Hj. destruct (E4 j xj ej Hx He Hj) as [y [Hy1 Hy2]].
  exists (h y). rewrite Hy1. cbn. split; auto. now apply map_nth_error.
Qed.
Lemma joint_amap h (x e : arg F) : wf_arg x -> compatible x e -> joint_shape (amap h x) e = joint_shape x e.
Proof.
  destruct x as [v|[|k [|k' s]] m [|v [|]]]; cbn; auto; try easy.
  destruct e; cbn; auto.
Qed.
Lemma compat_amap h (x e : arg F) : compatible x e -> compatible (amap h x) e.
Proof. destruct x as [v|[|k [|k' s]] m [|v [|]]]; cbn; auto. Qed.
Lemma at_amap h (x : arg F) j v : at_ x j = Some v -> at_ (amap h x) j = Some (h v).
Proof.
  destruct x as [w|s m d]; cbn; [congruence|].
  intros Hv. destruct s as [|k [|k' s]]; [destruct d as [|w [|]]| |];
    try (cbn [at_]; now rewrite nth_error_map, Hv).
  destruct j as [|[|]]; cbn in *; congruence.
Qed.
Lemma elementwise_pre f h (x e : arg F) : wf_arg x -> compatible x e -> elementwise f (amap h x) e ->
  elementwise (fun x e => f (amap h x) e) x e.
Proof.
  intros Hx Hc [r [E1 [E2 [E3 E4]]]]. exists r. rewrite joint_amap in * by auto.
  repeat split; auto. intros j xj ej Hxj He Hj. cbn [amap].
  apply (E4 j (h xj) ej); auto. now apply at_amap.
Qed.
Lemma elementwise_ext f f' (x e : arg F) :
  f x e = f' x e ->
  (forall a b, In a (entries x) -> In b (entries e) -> f (Sc a) (Sc b) = f' (Sc a) (Sc b)) ->
  elementwise f x e -> elementwise f' x e.
Proof.
  intros H1 H2 [r [E1 [E2 [E3 E4]]]]. exists r. rewrite <- H1. repeat split; auto.
  intros j xj ej Hxj He Hj. rewrite <- H2; [|eapply at_in; eauto..].
  apply (E4 j); auto.
Qed.
(** shape [] results may be floats or 0-d arrays; both behave alike *)
Lemma elementwise_comp f1 f2 (x e : arg F) : wf_arg e -> compatible x e ->
  elementwise f1 x e ->
  (forall r, f1 x e = Ok r -> shape_of r = joint_shape x e -> length (entries r) = size (joint_shape x e) ->
     elementwise f2 r e) ->
  elementwise (fun x e => rlet r := f1 x e in f2 r e) x e.
Proof.
  intros He Hc [r [E1 [E2 [E3 E4]]]] H2. 
  destruct (H2 r E1 E2 E3) as [r2 [G1 [G2 [G3 G4]]]].
  assert (Hj2 : joint_shape r e = joint_shape x e).
  { destruct r as [v|s m d]; cbn in *; auto.
    destruct x as [w|s1 m1 d1], e as [u|s2 m2 d2]; cbn in *; congruence. }
  exists r2. rewrite E1. cbn [rbind]. rewrite Hj2 in *. repeat split; auto.
  intros j xj ej Hxj Hej Hj. destruct (E4 j xj ej Hxj Hej Hj) as [y [Y1 Y2]].
  rewrite Y1. cbn [rbind]. apply (G4 j); auto.
  destruct r as [v|s m d]; cbn in *; auto.
  destruct j as [|j]; cbn in *; [congruence|]. destruct j; discriminate.
Qed.

Definition ordered_all (e : arg F) : Prop := forall v, In v (entries e) -> ordered1 v.

Lemma elementwise_masks g fh fp fe x e :
  wf_arg x -> wf_arg e -> compatible x e -> ordered_all e ->
  elementwise (fun x e => rlet p := broadcast x e in
    Ok match p with
       | PSc x e => Sc (by_cases fh fp fe x e)
       | PArr s _ dx _ de => fresh s (by_masks g fh fp fe dx de)
       end) x e.
Proof.
  intros Hx He Hc Ho. apply (elementwise_kernel _ (by_cases fh fp fe)); auto.
  intros A n ->. destruct (broadcast_arr x e Hx He Hc A) as [-> [L1 L2]]. cbn [rbind].
  rewrite by_masks_map2; [auto|congruence|].
  intros v Hv. apply Ho. destruct e as [w|]; cbn in *; auto.
  apply repeat_spec in Hv. auto.
Qed.

Section Deg.
Variables (g : nat -> F) (x e : arg F).
Hypotheses (Hx : wf_arg x) (He : wf_arg e) (Hc : compatible x e) (Ho : ordered_all e).
Lemma elementwise_degs f deg :
  elementwise f (in_rad deg x) e ->
  elementwise (fun x e => rlet r := f (in_rad deg x) e in Ok (out_deg deg r)) x e.
Proof.
  destruct deg; cbn [in_rad out_deg]; intros Hf.
  - apply (elementwise_post (fun x e => f (amap radians x) e)).
    now apply (elementwise_pre f).
  - eapply elementwise_ext; [| |exact Hf]; cbn; intros; now destruct (f _ e) || destruct (f _ _).
Qed.
Lemma in_rad_wf deg : wf_arg (in_rad deg x).
Proof. destruct deg; cbn; auto. now apply amap_wf. Qed.
Lemma in_rad_compat deg : compatible (in_rad deg x) e.
Proof. destruct deg; cbn; auto. now apply compat_amap. Qed.
Lemma in_rad_corder deg : c_order x -> c_order (in_rad deg x).
Proof. destruct deg; cbn; auto. now apply amap_corder. Qed.

Lemma C24_true_to_eccentric deg :
  elementwise (fun x e => true_to_eccentric g x e deg) x e.
Proof.
  pose proof (elementwise_degs _ deg (elementwise_post _ wrap2pi _ _
    (elementwise_masks g t2e_hyp t2e_per t2e_eli _ _ (in_rad_wf deg) He (in_rad_compat deg) Ho))) as E.
  eapply elementwise_ext; [| |exact E]; unfold true_to_eccentric; intros;
   destruct (broadcast _ _) as [[]|]; reflexivity.
Qed.
Lemma C24_eccentric_to_true deg :
  elementwise (fun x e => eccentric_to_true g x e deg) x e.
Proof.
  pose proof (elementwise_degs _ deg (elementwise_post _ wrap2pi _ _
    (elementwise_masks g e2t_hyp e2t_per e2t_eli _ _ (in_rad_wf deg) He (in_rad_compat deg) Ho))) as E.
  eapply elementwise_ext; [| |exact E]; unfold eccentric_to_true; intros;
   destruct (broadcast _ _) as [[]|]; reflexivity.
Qed.
Lemma C24_eccentric_to_mean deg :
  elementwise (fun x e => eccentric_to_mean g x e deg) x e.
Proof.
  pose proof (elementwise_degs _ deg 
    (elementwise_masks g e2m_hyp e2m_per e2m_eli _ _ (in_rad_wf deg) He (in_rad_compat deg) Ho)) as E.
  eapply elementwise_ext; [| |exact E]; unfold eccentric_to_mean; intros;
   destruct (broadcast _ _) as [[]|]; reflexivity.
Qed.
End Deg.

Lemma C24_true_to_mean g1 g2 x e deg : wf_arg x -> wf_arg e -> compatible x e -> ordered_all e ->
  elementwise (fun x e => true_to_mean g1 g2 x e deg) x e.
Proof.
  intros Hx He Hc Ho.
  eapply elementwise_ext; [| |
    apply (elementwise_degs x e Hx Hc (fun x e => rlet E := true_to_eccentric g1 x e false in
                                        eccentric_to_mean g2 E e false) deg)].
  1,2: unfold true_to_mean; intros; destruct (true_to_eccentric _ _ _ _); reflexivity.
  apply (elementwise_comp (fun x e => true_to_eccentric g1 x e false)
           (fun x e => eccentric_to_mean g2 x e false)); auto.
  - now apply in_rad_compat.
  - apply C24_true_to_eccentric; auto; [now apply in_rad_wf|now apply in_rad_compat].
  - intros r Er Sr Lr. apply C24_eccentric_to_mean; auto.
    + destruct r; cbn [wf_arg entries shape_of] in *; [exact I|congruence].
    + destruct r as [|s m d]; cbn in *; auto. subst s.
      assert (in_rad_c : compatible (in_rad deg x) e) by now apply in_rad_compat.
      destruct (in_rad deg x) as [|], e as [|]; cbn in *; auto.
Qed.

Lemma nditer_seq (d : list F) n : n = length d -> nditer nan (seq 0 n) d = d.
Proof.
  intros ->. unfold nditer. induction d as [|v d IH] using rev_ind; cbn; auto.
  rewrite app_length, seq_app, map_app. cbn. f_equal.
  - rewrite <- IH at 2. apply map_ext_in. intros j Hj. apply in_seq in Hj.
    rewrite app_nth1; auto. lia.
  - rewrite app_nth2 by lia. now rewrite Nat.sub_diag.
Qed.
Lemma c_order_mem (x : arg F) n : c_order x -> length (dat x n) = n -> mem_of x n = seq 0 n.
Proof. destruct x; cbn; auto. intros -> ->. auto. Qed.

Lemma elementwise_m2e o deg (x e : arg F) : wf_arg x -> wf_arg e -> compatible x e ->
  c_order x -> c_order e ->
  (forall a b, In a (entries x) -> In b (entries e) -> (b =? lit 0) = true ->
      Sc a = out_deg deg (Sc (m2e_el o (if deg then radians a else a) b))) ->
  elementwise (fun x e => mean_to_eccentric x e o deg) x e.
Proof.
  intros Hx He Hc Cx Ce Hz.
  set (k := fun a b => m2e_el o (if deg then radians a else a) b).
  set (h := fun v : F => if deg then degrees v else v).
  assert (Hs : forall a b, In a (entries x) -> In b (entries e) ->
     mean_to_eccentric (Sc a) (Sc b) o deg = Ok (Sc (h (k a b)))).
  { intros a b Ha Hb. unfold mean_to_eccentric, h, k.
    destruct (b =? lit 0) eqn:Eb.
    - destruct deg; cbn; rewrite Eb; rewrite (Hz a b) by auto; reflexivity.
    - destruct deg; cbn; rewrite Eb; reflexivity. }
  destruct (is_arr (in_rad deg x) || is_arr e) eqn:A.
  - assert (Hx' : wf_arg (in_rad deg x)) by now apply in_rad_wf.
    assert (Hc' : compatible (in_rad deg x) e) by now apply in_rad_compat.
    assert (Cx' : c_order (in_rad deg x)) by now apply in_rad_corder.
    assert (Hj : joint_shape (in_rad deg x) e = joint_shape x e).
    { destruct deg; cbn; auto. now apply joint_amap. }
    destruct (broadcast_arr _ _ Hx' He Hc' A) as [B [L1 L2]].
    rewrite Hj in *. set (n := size (joint_shape x e)) in *.
    set (r := out_deg deg (fresh (joint_shape x e) (map2 (m2e_el o) (dat (in_rad deg x) n) (dat e n)))).
    assert (Er : mean_to_eccentric x e o deg = Ok r \/ n = 0%nat /\
       mean_to_eccentric x e o deg = Ok (fresh (joint_shape x e) [])).
    { unfold mean_to_eccentric. rewrite B. cbn [rbind]. rewrite L1.
      destruct n as [|n'] eqn:En; [now right|left]. cbn [Nat.eqb].
      rewrite (c_order_mem _ _ Cx' L1), (c_order_mem _ _ Ce L2).
      now rewrite !nditer_seq. }
    destruct Er as [Er|[En Er]].
    2:{ eexists. rewrite Er. split; [reflexivity|]. cbn. fold n. rewrite En.
        repeat split; auto. intros. lia. }
    exists r. split; auto. unfold r, out_deg.
    split; [destruct deg; rewrite ?amap_shape; reflexivity|].
    assert (Ee : entries r = map h (map2 (m2e_el o) (dat (in_rad deg x) n) (dat e n))).
    { unfold r, out_deg, h. destruct deg; [rewrite amap_entries; auto|]. now rewrite map_id. }
    fold r. fold (out_deg deg (fresh (joint_shape x e) (map2 (m2e_el o) (dat (in_rad deg x) n) (dat e n)))).
    fold r. rewrite Ee, map_length, map2_length, L1, L2, Nat.min_id. fold n. split; auto.
    intros j xj ej Hxj Hej Hjn. exists (h (k xj ej)). split.
    + apply Hs; eapply at_in; eauto.
    + apply map_nth_error. rewrite nth_error_map2.
      rewrite (dat_at e n j ej), (dat_at (in_rad deg x) n j (if deg then radians xj else xj)); auto.
      destruct deg; cbn; auto. now apply at_amap.
  - assert (Ex : exists a, in_rad deg x = Sc a) by (destruct (in_rad deg x); cbn in A; eauto; discriminate).
    destruct e as [b|]; [|rewrite orb_comm in A; discriminate].
    destruct Ex as [a' Ex].
    assert (Ea : exists a, entries x = [a] /\ shape_of x = [] /\ a' = (if deg then radians a else a) /\ (x = Sc a \/ deg = true)).
    { unfold in_rad in Ex. destruct deg.
      - destruct x as [a|[|? [|? ?]] m [|a [|? ?]]]; cbn in Ex; try discriminate; injection Ex as <-; exists a; auto.
      - subst x. exists a'. auto. }
    destruct Ea as [a [Ea [Sa [-> Hd]]]].
    assert (Hab : mean_to_eccentric x (Sc b) o deg = Ok (Sc (h (k a b))) \/
                  mean_to_eccentric x (Sc b) o deg = Ok x /\ a = h (k a b)).
    { unfold mean_to_eccentric. rewrite Ex. cbn [broadcast rbind].
      destruct (b =? lit 0) eqn:Eb; [right|left].
      - split; auto. specialize (Hz a b). rewrite Ea in Hz. cbn in Hz.
        unfold h, k. destruct deg; cbn in Hz; injection Hz; auto.
      - unfold h, k. destruct deg; reflexivity. }
    assert (Jx : joint_shape x (Sc b) = []) by (destruct x; cbn in *; auto).
    assert (exists r, mean_to_eccentric x (Sc b) o deg = Ok r /\ shape_of r = [] /\ entries r = [h (k a b)])
      as [r [Er [Sr Dr]]].
    { destruct Hab as [Hab|[Hab Hab']]; rewrite Hab; eexists; (split; [reflexivity|]); cbn; auto.
      rewrite <- Hab'. auto. }
    exists r. rewrite Jx, Dr, Sr. repeat split; auto.
    intros j xj ej Hxj. injection 1 as <-. cbn [size fold_right]. intros Hj. assert (j = 0)%nat as -> by lia.
    assert (xj = a) as -> by (destruct x; cbn in *; [|subst data; cbn in *]; congruence).
    exists (h (k a b)). split; auto. apply Hs; [rewrite Ea|]; cbn; auto.
Qed.

Lemma C24_kepler_guess x e : wf_arg x -> wf_arg e -> compatible x e -> c_order x -> c_order e ->
  size (joint_shape x e) <> 0%nat ->
  elementwise kepler_guess x e.
Proof.
  intros Hx He Hc Cx Ce Hn. apply (elementwise_kernel _ guess_el); auto.
  intros A n ->. destruct (broadcast_arr x e Hx He Hc A) as [B [L1 L2]].
  unfold kepler_guess. rewrite B. cbn [rbind]. rewrite L1.
  destruct (size (joint_shape x e)) as [|n] eqn:En; [easy|]. cbn [Nat.eqb].
  rewrite (c_order_mem _ _ Cx L1), (c_order_mem _ _ Ce L2). now rewrite !nditer_seq.
Qed.

Lemma elementwise_m2t g o (deg : bool) (x e : arg F) : wf_arg x -> wf_arg e -> compatible x e ->
  c_order x -> c_order e -> ordered_all e ->
  (forall a b, In a (entries x) -> In b (entries e) -> (b =? lit 0) = true ->
     m2e_el o (if deg then radians a else a) b = (if deg then radians a else a)) ->
  elementwise (fun x e => mean_to_true g x e o deg) x e.
Proof.
  intros Hx He Hc Cx Ce Ho Hz.
  eapply elementwise_ext; [| |
    apply (elementwise_degs x e Hx Hc (fun x e => rlet E := mean_to_eccentric x e o false in
                                        eccentric_to_true g E e false) deg)].
  1,2: unfold mean_to_true; intros; destruct (mean_to_eccentric _ _ _ _); reflexivity.
  apply (elementwise_comp (fun x e => mean_to_eccentric x e o false)
           (fun x e => eccentric_to_true g x e false)); auto.
  - now apply in_rad_compat.
  - apply elementwise_m2e; auto; [now apply in_rad_wf|now apply in_rad_compat|now apply in_rad_corder|].
    intros a b Ha Hb Hb0. cbn. f_equal.
    assert (exists a0, In a0 (entries x) /\ a = if deg then radians a0 else a0) as [a0 [Ha0 ->]].
    { destruct deg; cbn in Ha; [|eauto]. rewrite amap_entries in Ha. apply in_map_iff in Ha.
      destruct Ha as [a0 [<- ?]]. eauto. }
    symmetry. now apply Hz.
  - intros r Er Sr Lr. apply C24_eccentric_to_true; auto.
    + destruct r; cbn [wf_arg entries shape_of] in *; [exact I|congruence].
    + destruct r as [|s m d]; cbn in *; auto. subst s.
      assert (in_rad_c : compatible (in_rad deg x) e) by now apply in_rad_compat.
      destruct (in_rad deg x) as [|], e as [|]; cbn in *; auto.
Qed.

(** C24 for every arithmetic.  Missing from the full statement (and false, see the [_refuted]
    theorems in PropsDegrees.v): eccentricities that do not compare with 1 (NaN), and for the
    solver based functions arguments that are not in C memory order; e == 0 in
    mean_to_eccentric, where the scalar path skips the solver, is covered there. *)
Theorem C24_elementwise_partial : forall g g1 g2 o deg (x e : arg F),
  wf_arg x -> wf_arg e -> compatible x e -> ordered_all e ->
  elementwise (fun x e => true_to_eccentric g x e deg) x e
  /\ elementwise (fun x e => eccentric_to_true g x e deg) x e
  /\ elementwise (fun x e => eccentric_to_mean g x e deg) x e
  /\ elementwise (fun x e => true_to_mean g1 g2 x e deg) x e
  /\ (c_order x -> c_order e ->
      (size (joint_shape x e) <> 0%nat -> elementwise kepler_guess x e)
      /\ ((forall b, In b (entries e) -> (b =? lit 0) = false) ->
          elementwise (fun x e => mean_to_eccentric x e o deg) x e
          /\ elementwise (fun x e => mean_to_true g x e o deg) x e)).
Proof.
  intros g g1 g2 o deg x e Hx He Hc Ho.
  split; [now apply C24_true_to_eccentric|].
  split; [now apply C24_eccentric_to_true|].
  split; [now apply C24_eccentric_to_mean|].
  split; [now apply C24_true_to_mean|].
  intros Cx Ce. split; [intros; now apply C24_kepler_guess|].
  intros Hz. split.
  - apply elementwise_m2e; auto. intros a b _ Hb Hb0. rewrite Hz in Hb0; [discriminate|auto].
  - apply elementwise_m2t; auto. intros a b _ Hb Hb0. rewrite Hz in Hb0; [discriminate|auto].
Qed.
(** arrays of different shape raise TypeError (with degrees, np.radians first turns a 0-d array
    into a float, so shape () is excluded there) *)
Theorem C24_shape_mismatch : forall g g1 g2 o deg s m d s' m' d',
  s <> s' -> (deg = true -> s <> []) ->
  let x := Arr s m d : arg F in let e := Arr s' m' d' in
  true_to_eccentric g x e deg = Raise TypeError
  /\ eccentric_to_true g x e deg = Raise TypeError
  /\ eccentric_to_mean g x e deg = Raise TypeError
  /\ true_to_mean g1 g2 x e deg = Raise TypeError
  /\ kepler_guess x e = Raise TypeError
  /\ mean_to_eccentric x e o deg = Raise TypeError
  /\ mean_to_true g x e o deg = Raise TypeError.
Proof.
  intros g g1 g2 o deg s m d s' m' d' Hs Hd x e.
  assert (Hb : forall m d, broadcast (Arr s m d) e = Raise TypeError).
  { intros. cbn. destruct (shape_eqb s s') eqn:E; auto. apply shape_eqb_eq in E. easy. }
  assert (Hr : exists m2 d2, in_rad deg x = Arr s m2 d2).
  { unfold in_rad, x. destruct deg; [|eauto]. destruct s as [|? [|? ?]]; [now destruct Hd|cbn; eauto..]. }
  destruct Hr as [m2 [d2 Hr]].
  unfold true_to_eccentric, eccentric_to_true, eccentric_to_mean, true_to_mean, kepler_guess, mean_to_true,
    mean_to_eccentric, true_to_eccentric.
  rewrite !Hr. unfold x. cbn [in_rad]. rewrite !Hb. cbn. auto 10.
Qed.
End Generic.

#[local] Existing Instance NP_toy.
(** a 2x2 array of anomalies in column-major memory with mixed eccentricities, and a scalar
    against an array *)
Definition toy_x : arg Z := Arr [2;2]%nat [0;2;1;3]%nat [3;4;5;6]%Z.
Definition toy_e : arg Z := Arr [2;2]%nat [0;1;2;3]%nat [0;1;2;-1]%Z.
Example C24_example : wf_arg toy_x /\ wf_arg toy_e /\ compatible toy_x toy_e /\ ordered_all toy_e
  /\ compatible (Sc 3%Z) toy_e /\ c_order toy_e
  /\ (forall b, In b (entries (Arr [2]%nat [0;1]%nat [1;2]%Z)) -> eqb b (lit 0) = false).
Proof.
  repeat split; cbn; auto.
  - intros v. cbn. intros [<-|[<-|[<-|[<-|[]]]]]; exact I.
  - intros b [<-|[<-|[]]]; reflexivity.
Qed.
(** the loop needs one iteration here *)
Example C18_example :
  laguerre_solve_kepler_opt 1%Z 5%Z 0%Z {| tol := 1%Z; max_iter := 10; degree := 1%Z |}
  = Some (5%Z, 1%Z).
Proof. reflexivity. Qed.

