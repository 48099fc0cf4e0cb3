(** * C98: an Orbit with degrees=True is the Orbit with degrees=False with its angles in degrees. *)
From Coq Require Import Ascii String List Bool ZArith QArith Qreals Reals Lra Lia Arith FunctionalExtensionality.
From Verif Require Import NP NPReal Spec RealBase KeplerModel ConvModel UnitModel OrbitModel OrbitLists Lists ConvCols PropsDegrees PropsEquiDeg PropsFloatScale PropsOrbitScale.
Import ListNotations.
Local Open Scope nat_scope.

Notation Dg := (@degrees V NP_num).
Lemma Dg_nan : Dg NaN = NaN. Proof. now rewrite degrees_scale. Qed.
Lemma Dg_isnan (x : V) : isnan (Dg x) = isnan x.
Proof.
  rewrite degrees_scale. unfold isnan. cbn [eqb NP_num]. destruct x; try reflexivity. cbn [scale num_eqb]. unfold Reqb. do 2 (destruct (Req_EM_T _ _); [|congruence]). reflexivity.
Qed.
Lemma Dg_add (x y : V) : add (Dg x) (Dg y) = Dg (add x y). Proof. now rewrite !degrees_scale, scale_add. Qed.
Lemma k_pos : (0 < 180 / PI)%R. Proof. pose proof PI_RGT_0. apply Rdiv_lt_0_compat; lra. Qed.
Lemma sign_pos k x (a b c : V) : (0 < k)%R -> num_sign (x * k) a b c = num_sign x a b c.
Proof.
  intros K. unfold num_sign. destruct (Rlt_dec 0 x).
  - destruct (Rlt_dec 0 (x * k)); auto. exfalso. nra.
  - destruct (Rlt_dec 0 (x * k)); [exfalso; nra|]. destruct (Rlt_dec x 0), (Rlt_dec (x * k) 0); auto; exfalso; nra.
Qed.
Lemma scale_sign k x (a b c : V) : scale k a = a -> scale k b = b -> scale k c = c -> scale k (num_sign x a b c) = num_sign x a b c.
Proof. intros. unfold num_sign. destruct (Rlt_dec 0 x); auto. destruct (Rlt_dec x 0); auto. Qed.
Lemma Dg_mul (x y : V) : mul (Dg x) y = Dg (mul x y).
Proof.
  rewrite !degrees_scale. pose proof k_pos as K. set (k := (180 / PI)%R) in *. clearbody k. cbn [mul NP_num].
  destruct x as [x| | |], y as [y| | |]; cbn [scale num_mul]; rewrite ?(sign_pos k), ?scale_sign by auto; try reflexivity. f_equal. ring.
Qed.
Lemma Dg_div (x y : V) : div (Dg x) y = Dg (div x y).
Proof.
  rewrite !degrees_scale. pose proof k_pos as K. set (k := (180 / PI)%R) in *. clearbody k. cbn [div NP_num].
  destruct x as [x| | |], y as [y| | |]; cbn [scale num_div]; try reflexivity; try (now destruct (Rlt_dec y 0)); try (f_equal; ring).
  rewrite (sign_pos k) by auto. destruct (Req_EM_T y 0); [now rewrite scale_sign|]. cbn [scale]. f_equal. field. auto.
Qed.
Lemma circle_deg : @circle V NP_num true = Dg (circle false).
Proof. rewrite degrees_scale. unfold circle. num. cbn [scale]. f_equal. pose proof PI_RGT_0. field. lra. Qed.
Lemma wrap_mod (x : V) : nmod (Dg x) (lit 360) = Dg (nmod x (mul (lit 2) npi)).
Proof.
  rewrite !degrees_scale. pose proof k_pos as K. pose proof PI_RGT_0. num. replace 360%R with (2 * PI * (180 / PI))%R by (field; lra). apply scale_mod; [lra|exact K].
Qed.

(** values whose elements lie in memory in the order of a new array, or with two or more axes; not 0-dimensional *)
Definition plain (v : arg V) : Prop := match v with Sc _ => True | Arr [] _ _ => False | Arr [_] m d => m = seq 0 (length d) | _ => True end.
Lemma amap_on f v : plain v -> amap f v = on_arg f v.
Proof. destruct v as [x|[|n [|k s]] m d]; intros H; [reflexivity|destruct H| |reflexivity]. cbn in H. subst m. reflexivity. Qed.
Lemma plain_on f v : plain v -> plain (on_arg f v).
Proof. destruct v as [x|[|n [|k s]] m d]; intros H; [exact I|destruct H| |exact I]. cbn in *. now rewrite map_length. Qed.
Lemma plain_fresh n (d : list V) : plain (fresh [n] d). Proof. reflexivity. Qed.
Lemma fresh_plain s (d : list V) : s <> [] -> plain (fresh s d). Proof. destruct s as [|n [|k s]]; [contradiction| |]; intros _; [reflexivity|exact I]. Qed.
Lemma plain_amap f v : plain v -> plain (amap f v). Proof. intros H. rewrite amap_on by auto. now apply plain_on. Qed.
Lemma on_arg_id f v : (forall x, f x = x) -> on_arg f v = v.
Proof. intros E. destruct v as [x|s m d]; cbn; [now rewrite E|]. f_equal. rewrite <- (map_id d) at 2. now apply map_ext. Qed.
Lemma on_on f h v : on_arg f (on_arg h v) = on_arg (fun x => f (h x)) v. Proof. destruct v as [x|s m d]; cbn; auto. now rewrite map_map. Qed.
Lemma amap_rad v : plain v -> amap radians (on_arg Dg v) = v.
Proof. intros H. rewrite amap_on by now apply plain_on. rewrite on_on. apply on_arg_id, rad_deg. Qed.
(** the conversion [fn] with degrees is the one with radians between conversions of the unit *)
Definition dconv (fn : arg V -> arg V -> bool -> res (arg V)) : Prop :=
  forall x e, plain x -> plain e -> fn (on_arg Dg x) e true = rmap (on_arg Dg) (fn x e false) /\ forall r, fn x e false = Ok r -> plain r.
Lemma dconv_of fn : (forall x e, plain x -> fn x e true = rbind (fn (amap radians x) e false) (fun r => Ok (amap degrees r))) ->
  (forall x e r, plain x -> plain e -> fn x e false = Ok r -> plain r) -> dconv fn.
Proof.
  intros E S x e Hx He. split; [|intros r; now apply S]. rewrite E by now apply plain_on. rewrite amap_rad by auto.
  destruct (fn x e false) as [r|] eqn:Q; cbn [rbind rmap]; auto. f_equal. apply amap_on. exact (S x e r Hx He Q).
Qed.
Lemma bc_plain (x e : arg V) s mx dx me de : plain x -> plain e -> broadcast x e = Ok (PArr s mx dx me de) -> s <> [].
Proof.
  intros Hx He Q. destruct x as [v|sx m d], e as [w|se m' d']; cbn [broadcast] in Q; try discriminate.
  - injection Q as <- _ _ _ _. intros ->. exact He.
  - injection Q as <- _ _ _ _. intros ->. exact Hx.
  - destruct (shape_eqb sx se); [|discriminate]. injection Q as <- _ _ _ _. intros ->. exact Hx.
Qed.
Lemma ok_inj {A} (a b : A) : Ok a = Ok b -> b = a. Proof. now injection 1. Qed.
Lemma t2e_plain g x e r : plain x -> plain e -> true_to_eccentric g x e false = Ok r -> plain r.
Proof.
  intros Hx He. unfold true_to_eccentric. cbn [in_rad out_deg]. destruct (broadcast x e) as [[v w|s mx dx me de]|] eqn:Q; cbn [rbind]; intros E; try discriminate; apply ok_inj in E; subst r; [exact I|].
  apply plain_amap, fresh_plain. exact (bc_plain _ _ _ _ _ _ _ Hx He Q).
Qed.
Lemma e2t_plain g x e r : plain x -> plain e -> eccentric_to_true g x e false = Ok r -> plain r.
Proof.
  intros Hx He. unfold eccentric_to_true. cbn [in_rad out_deg]. destruct (broadcast x e) as [[v w|s mx dx me de]|] eqn:Q; cbn [rbind]; intros E; try discriminate; apply ok_inj in E; subst r; [exact I|].
  apply plain_amap, fresh_plain. exact (bc_plain _ _ _ _ _ _ _ Hx He Q).
Qed.
Lemma e2m_plain g x e r : plain x -> plain e -> eccentric_to_mean g x e false = Ok r -> plain r.
Proof.
  intros Hx He. unfold eccentric_to_mean. cbn [in_rad out_deg]. destruct (broadcast x e) as [[v w|s mx dx me de]|] eqn:Q; cbn [rbind]; intros E; try discriminate; apply ok_inj in E; subst r; [exact I|].
  apply fresh_plain. exact (bc_plain _ _ _ _ _ _ _ Hx He Q).
Qed.
Lemma m2e_plain o x e r : plain x -> plain e -> mean_to_eccentric x e o false = Ok r -> plain r.
Proof.
  intros Hx He. unfold mean_to_eccentric. cbn [in_rad out_deg]. destruct (broadcast x e) as [[v w|s mx dx me de]|] eqn:Q; cbn [rbind]; intros E; try discriminate.
  - destruct (eqb w (lit 0)); apply ok_inj in E; subst r; [|exact I]; destruct x; [exact I|destruct e; cbn [broadcast] in Q; [discriminate|destruct (shape_eqb _ _); discriminate]].
  - destruct (length dx =? 0); apply ok_inj in E; subst r; apply fresh_plain; exact (bc_plain _ _ _ _ _ _ _ Hx He Q).
Qed.
Lemma t2m_plain g g' x e r : plain x -> plain e -> true_to_mean g g' x e false = Ok r -> plain r.
Proof.
  intros Hx He. unfold true_to_mean. cbn [in_rad out_deg]. destruct (true_to_eccentric g x e false) as [E|] eqn:Q; cbn [rbind]; [|discriminate]. apply t2e_plain in Q; auto.
  destruct (eccentric_to_mean g' E e false) as [r'|] eqn:Q'; cbn [rbind]; [|discriminate]. intros E'. apply ok_inj in E'; subst r. exact (e2m_plain _ _ _ _ Q He Q').
Qed.
Lemma m2t_plain g o x e r : plain x -> plain e -> mean_to_true g x e o false = Ok r -> plain r.
Proof.
  intros Hx He. unfold mean_to_true. cbn [in_rad out_deg]. destruct (mean_to_eccentric x e o false) as [E|] eqn:Q; cbn [rbind]; [|discriminate]. apply m2e_plain in Q; auto.
  destruct (eccentric_to_true g E e false) as [r'|] eqn:Q'; cbn [rbind]; [|discriminate]. intros E'. apply ok_inj in E'; subst r. exact (e2t_plain _ _ _ _ Q He Q').
Qed.
Lemma d_t2e g : dconv (true_to_eccentric g). Proof. apply dconv_of; [intros; apply (C14_anomalies g g default_options)|apply t2e_plain]. Qed.
Lemma d_e2t g : dconv (eccentric_to_true g). Proof. apply dconv_of; [intros; apply (C14_anomalies g g default_options)|apply e2t_plain]. Qed.
Lemma d_e2m g : dconv (eccentric_to_mean g). Proof. apply dconv_of; [intros; apply (C14_anomalies g g default_options)|apply e2m_plain]. Qed.
Lemma d_t2m g g' : dconv (true_to_mean g g'). Proof. apply dconv_of; [intros; apply (C14_anomalies g g' default_options)|apply t2m_plain]. Qed.
Lemma d_m2t g o : dconv (fun x e => mean_to_true g x e o). Proof. apply dconv_of; [intros; apply (C14_anomalies g g o)|exact (fun x e r => m2t_plain g o x e r)]. Qed.
Lemma d_m2e o : dconv (fun x e => mean_to_eccentric x e o).
Proof. apply dconv_of; [intros x e Hx; apply C14_mean_to_eccentric; intros m v ->; destruct Hx|exact (fun x e r => m2e_plain o x e r)]. Qed.

(** ** The object with degrees=True *)
Section Degrees.
Context (gb : nat -> nat -> V).
Notation orb := (OrbitModel.orb V).
Notation A6 := (@ang6 V Dg).
(** the same object with degrees=True: i, omega, Omega, the anomaly and the three stored anomalies in degrees *)
Definition sd (s : orb) : orb :=
  mkorb (oM0 s) (oG s) (oauto s) (odirect s) (okro s) (ocro s) true (otype s) (oopts s)
        (om s) (ocart s) (map (ang6 Dg) (okep s)) (map Dg (onu s)) (on_arg Dg (oE s)) (map Dg (oMa s)) (ocf s) (okf s) (oit s).
Definition dsim {A} (f : A -> A) (m' m : M A) : Prop :=
  forall s, odeg s = false -> odeg (fst (m s)) = false /\ m' (sd s) = (sd (fst (m s)), rmap f (snd (m s))).
Local Notation self := (fun x => x).
Lemma ds_ret {A} (f : A -> A) x' x : x' = f x -> dsim f (ret x') (ret x). Proof using Type. intros -> s Hs. split; [exact Hs|reflexivity]. Qed.
Lemma ds_raise {A} (f : A -> A) e : dsim f (raise e) (raise e). Proof using Type. intros s Hs. split; [exact Hs|reflexivity]. Qed.
Lemma ds_bind {A B} (f : A -> A) (g : B -> B) m' m k' k : dsim f m' m -> (forall x, dsim g (k' (f x)) (k x)) -> dsim g (bind m' k') (bind m k).
Proof using Type. intros H1 H2 s Hs. destruct (H1 s Hs) as [D1 E1]. unfold bind. rewrite E1. destruct (m s) as [s1 [x|e]]; cbn [fst snd rmap] in *; [now apply H2|now split]. Qed.
Lemma ds_seq {A B} (g : B -> B) (m' m : M A) (k' k : M B) : dsim self m' m -> dsim g k' k -> dsim g (bind m' (fun _ => k')) (bind m (fun _ => k)).
Proof using Type. intros H1 H2. eapply ds_bind; eauto. Qed.
Lemma ds_bget {B} (g : B -> B) k' k : (forall s, odeg s = false -> dsim g (k' (sd s)) (k s)) -> dsim g (bind get k') (bind get k).
Proof using Type. intros K s Hs. exact (K s Hs s Hs). Qed.
Lemma ds_lift {A} (f : A -> A) r' r : r' = rmap f r -> dsim f (lift r') (lift r). Proof using Type. intros -> s Hs. split; [exact Hs|reflexivity]. Qed.
Lemma ds_blift {A B} (f : A -> A) (g : B -> B) r' r k' k : r' = rmap f r -> (forall x, r = Ok x -> dsim g (k' (f x)) (k x)) -> dsim g (bind (lift r') k') (bind (lift r) k).
Proof using Type. intros -> K s Hs. unfold bind, lift. destruct r as [x|e]; cbn [rmap fst snd]; [now apply K|now split]. Qed.
Lemma ds_self {A} (r : res A) : r = rmap self r. Proof using Type. now destruct r. Qed.
Lemma ds_blid {A B} (g : B -> B) (r' r : res A) k' k : r' = r -> (forall x, dsim g (k' x) (k x)) -> dsim g (bind (lift r') k') (bind (lift r) k).
Proof using Type. intros -> K. eapply (ds_blift self); [apply ds_self|auto]. Qed.
Lemma ds_modify h' h : (forall s, odeg s = false -> odeg (h s) = false) -> (forall s, odeg s = false -> h' (sd s) = sd (h s)) -> dsim self (modify h') (modify h).
Proof using Type. intros D E s Hs. unfold modify. cbn [fst snd]. split; [now apply D|]. now rewrite (E s Hs). Qed.
Lemma ds_void {A} (f : A -> A) m' m : dsim f m' m -> dsim self (void m') (void m).
Proof using Type. intros Q. eapply ds_bind; [exact Q|]. intros x. now apply ds_ret. Qed.
Lemma ds_bconv {B} (g : B -> B) fn xa xe k' k : dconv fn -> plain xa -> plain xe -> (forall x, dsim g (k' (on_arg Dg x)) (k x)) ->
  dsim g (bind (lift (fn (on_arg Dg xa) xe true)) k') (bind (lift (fn xa xe false)) k).
Proof using Type. intros C Pa Pe K. eapply ds_blift; [exact (proj1 (C xa xe Pa Pe))|auto]. Qed.
Lemma ds_conv fn xa xe : dconv fn -> plain xa -> plain xe -> dsim (on_arg Dg) (lift (fn (on_arg Dg xa) xe true)) (lift (fn xa xe false)).
Proof using Type. intros C Pa Pe. apply ds_lift. exact (proj1 (C xa xe Pa Pe)). Qed.

Ltac sx := cbn [sd oM0 oG oauto odirect okro ocro odeg otype oopts om ocart okep onu oE oMa ocf okf oit].
Ltac md := apply ds_modify; [let s := fresh "s" in let Hs := fresh "Hs" in intros s Hs; exact Hs|let s := fresh "s" in let Hs := fresh "Hs" in intros s Hs;
  unfold with_cart, with_kep, with_m, with_nu, with_E, with_Ma, with_cf, with_kf, with_type, with_it, with_flags, sd; sx; try reflexivity].
Ltac bg s := apply ds_bget; let H := fresh "Hd" in intros s H; sx; rewrite ?H.

Lemma num_sd s : OrbitModel.num (sd s) = OrbitModel.num s. Proof using Type. unfold OrbitModel.num. sx. apply map_length. Qed.
Lemma nan6_A6 c : nan6 (A6 c) = nan6 c. Proof using Type. unfold nan6, ang6. cbn [s0 s1 s2 s3 s4 s5]. now rewrite !Dg_isnan. Qed.
Lemma mask_A6 cols ps : do_mask (map A6 cols) ps = do_mask cols ps.
Proof using Type. unfold do_mask. rewrite map_length, pick_map, map_map. f_equal. apply map_ext. intros c. now rewrite nan6_A6. Qed.
Lemma s5_A6 kep : map s5 (map A6 kep) = map Dg (map s5 kep). Proof using Type. now rewrite !map_map. Qed.
Lemma s1_A6 kep : map s1 (map A6 kep) = map s1 kep. Proof using Type. rewrite map_map. reflexivity. Qed.
Lemma set5_A6 kep x : map2 set5 (map A6 kep) (map Dg x) = map A6 (map2 set5 kep x). Proof using Type. now apply map2_maps. Qed.
Lemma fresh_on f s d : fresh s (map f d) = on_arg f (fresh s d). Proof using Type. unfold fresh. cbn [on_arg]. now rewrite map_length. Qed.
Lemma adata_on f v : adata (on_arg f v) = map f (adata v). Proof using Type. now destruct v. Qed.
Lemma from_c2k g x mu : from_mat (snd (cart_to_kep g x mu true)) = rmap (map A6) (from_mat (snd (cart_to_kep g x mu false))).
Proof using Type.
  rewrite (proj1 (C14_cart_kep g (g 0) x mu)). destruct (snd (cart_to_kep g x mu false)) as [[]|]; reflexivity.
Qed.
Lemma from_k2c g kep mu : from_mat (snd (kep_to_cart g (KMat (map A6 kep)) mu true)) = from_mat (snd (kep_to_cart g (KMat kep) mu false)).
Proof using Type.
  rewrite (proj2 (C14_cart_kep (fun _ => g) g (KMat (map A6 kep)) mu)). f_equal. f_equal. f_equal. exact (angles_id radians Dg (KMat kep) rad_deg).
Qed.

(** ** The methods *)
Lemma ds_calc_kep f inds : dsim self (calculate_kepler_f gb f inds) (calculate_kepler_f gb f inds).
Proof using Type.
  revert inds. induction f as [|f IH]; intros inds; [apply ds_raise|]. cbn [calculate_kepler_f].
  bg s. rewrite num_sd. apply ds_blid; [reflexivity|]. intros ps. cbv zeta.
  set (dm := do_mask (ocart s) ps). clearbody dm. destruct (negb (any dm)); [now apply ds_ret|].
  apply ds_seq; [md|]. clear s Hd. bg s. eapply ds_blift; [apply from_c2k|]. intros k _.
  apply ds_seq; [md; now rewrite mset_maps|].
  assert (CV : forall fn : arg V -> arg V -> bool -> res (arg V), dconv fn -> dsim self
    (bind get (fun st1 => let nu := mget dm (map s5 (okep st1)) in
     bind (if oauto st1 && negb (odirect st1) then calculate_kepler_f gb f (IMask (map negb (okf st1))) else ret tt) (fun _ =>
     bind get (fun st2 => let e := mget dm (map s1 (okep st2)) in
     bind (lift (fn (fresh [length nu] nu) (fresh [length e] e) (odeg st2))) (fun x =>
     modify (with_kep (fun kep => map2 set5 kep (mset dm (adata x) (map s5 kep)))))))))
    (bind get (fun st1 => let nu := mget dm (map s5 (okep st1)) in
     bind (if oauto st1 && negb (odirect st1) then calculate_kepler_f gb f (IMask (map negb (okf st1))) else ret tt) (fun _ =>
     bind get (fun st2 => let e := mget dm (map s1 (okep st2)) in
     bind (lift (fn (fresh [length nu] nu) (fresh [length e] e) (odeg st2))) (fun x =>
     modify (with_kep (fun kep => map2 set5 kep (mset dm (adata x) (map s5 kep)))))))))).
  { intros fn Cf. clear s Hd. bg s. cbv zeta. rewrite s5_A6, mget_maps, map_length, fresh_on. apply ds_seq.
    - destruct (oauto s && negb (odirect s)); [apply IH|now apply ds_ret].
    - bg t. rewrite s1_A6. apply ds_bconv; [exact Cf|apply plain_fresh|apply plain_fresh|]. intros x. md. now rewrite s5_A6, adata_on, mset_maps, set5_A6. }
  cbv zeta in CV. destruct (otype s); [now apply ds_ret|apply CV, d_t2e|apply CV, d_t2m].
Qed.
Lemma ds_kep_check : dsim self (kep_check gb) (kep_check gb).
Proof using Type. unfold kep_check. bg s. destruct (oauto s && negb (odirect s)); [apply ds_calc_kep|now apply ds_ret]. Qed.
(** what happens to the elements of row k *)
Definition hk (k : nat) : V -> V := if k <? 2 then fun x => x else Dg.
Lemma hk_nan k : hk k NaN = NaN. Proof using Type. unfold hk. destruct (k <? 2); [reflexivity|apply Dg_nan]. Qed.
Lemma row_A6 k kep : map (row_get k) (map A6 kep) = map (hk k) (map (row_get k) kep).
Proof using Type. rewrite !map_map. apply map_ext. intros c. destruct k as [|[|[|[|[|[|k]]]]]]; reflexivity. Qed.
Lemma ds_kep_row k : dsim (map (hk k)) (get_kep_row gb k) (get_kep_row gb k).
Proof using Type. unfold get_kep_row. apply ds_seq; [apply ds_kep_check|]. bg s. apply ds_ret, row_A6. Qed.
Lemma ds_row_id k : k < 2 -> dsim self (get_kep_row gb k) (get_kep_row gb k).
Proof using Type.
  intros Hk s Hs. destruct (ds_kep_row k s Hs) as [D E]. split; [exact D|]. rewrite E. f_equal. destruct (snd _) as [r|]; [|reflexivity]. cbn [rmap]. f_equal.
  unfold hk. apply Nat.ltb_lt in Hk. rewrite Hk. apply map_id.
Qed.
Lemma ds_e : dsim self (get_e gb) (get_e gb). Proof using Type. apply ds_row_id. lia. Qed.
Lemma ds_a : dsim self (get_kep_row gb 0) (get_kep_row gb 0). Proof using Type. apply ds_row_id. lia. Qed.
Lemma ds_anom : dsim (map Dg) (get_anom gb) (get_anom gb). Proof using Type. exact (ds_kep_row 5). Qed.

(** indices whose selection lies in memory in order *)
Definition forward (inds : Idx) : Prop := match inds with ISlice _ _ st => (0 <= st)%Z | _ => True end.
Lemma sel_on f row inds : sel (map f row) inds = rmap (on_arg f) (sel row inds).
Proof using Type.
  unfold sel. rewrite map_length. destruct (resolve (length row) inds) as [ps|]; cbn [rbind rmap]; auto. rewrite pick_map, map_length.
  destruct inds; try (cbn [rmap]; now rewrite fresh_on); [|reflexivity]. destruct (pick ps row) as [|x [|y t]]; reflexivity.
Qed.
Lemma sel_plain row inds x : forward inds -> sel row inds = Ok x -> plain x.
Proof using Type.
  unfold sel. destruct (resolve (length row) inds) as [ps|]; cbn [rbind]; [|discriminate]. intros Hf E.
  destruct inds; try (apply ok_inj in E; subst x; apply plain_fresh).
  - destruct (pick ps row) as [|y [|y0 t]]; try discriminate. apply ok_inj in E. subst x. exact I.
  - cbn [forward] in Hf. apply ok_inj in E. subst x. cbn [plain]. destruct (Z.ltb_spec step 0); [lia|reflexivity].
Qed.
Lemma bcast1_on f n v : f NaN = NaN -> bcast1 n (on_arg f v) = rmap (map f) (bcast1 n v).
Proof using Type.
  intros E. destruct v as [x|s m d]; cbn [on_arg bcast1]; [cbn; now rewrite repeat_maps|].
  assert (Q : nth 0 (map f d) NaN = f (nth 0 d NaN)) by (rewrite <- E at 1; apply map_nth).
  destruct (strip_ones s) as [|k [|k' t]]; cbn; auto; [|now destruct (k =? n)]. f_equal. now rewrite <- repeat_maps, Q.
Qed.
Lemma rbind_maps {A B} (f : A -> A) (g : B -> B) r (k' k : A -> res B) : (forall x, k' (f x) = rmap g (k x)) -> rbind (rmap f r) k' = rmap g (rbind r k).
Proof using Type. intros E. destruct r; cbn; auto. Qed.
Lemma assign_on f row inds v : f NaN = NaN -> assign (map f row) inds (on_arg f v) = rmap (map f) (assign row inds v).
Proof using Type.
  intros E. unfold assign. rewrite map_length. destruct (resolve (length row) inds) as [ps|]; cbn [rbind rmap]; auto. rewrite (bcast1_on f _ v E).
  apply rbind_maps. intros vs. cbn. now rewrite put_maps.
Qed.
(** [fn] of the anomaly and eccentricity selected by an index *)
Lemma ds_selconv fn inds (s : orb) : dconv fn -> forward inds -> odeg s = false ->
  dsim (on_arg Dg) (bind (get_anom gb) (fun an => bind (lift (sel an inds)) (fun xa => bind (get_e gb) (fun e => bind (lift (sel e inds)) (fun xe => lift (fn xa xe true))))))
    (bind (get_anom gb) (fun an => bind (lift (sel an inds)) (fun xa => bind (get_e gb) (fun e => bind (lift (sel e inds)) (fun xe => lift (fn xa xe (odeg s))))))).
Proof using Type.
  intros C Hf ->. eapply ds_bind; [apply ds_anom|]. intros an. eapply ds_blift; [apply sel_on|]. intros xa Ha. apply (ds_bind self); [apply ds_e|]. intros e.
  eapply (ds_blift self); [apply ds_self|]. intros xe He. apply ds_conv; [exact C|exact (sel_plain _ _ _ Hf Ha)|exact (sel_plain _ _ _ Hf He)].
Qed.
Lemma ds_selanom inds : dsim (on_arg Dg) (bind (get_anom gb) (fun an => lift (sel an inds))) (bind (get_anom gb) (fun an => lift (sel an inds))).
Proof using Type. eapply ds_bind; [apply ds_anom|]. intros an. apply ds_lift, sel_on. Qed.
Lemma ds_calc_true inds : forward inds -> dsim self (calc_true_anomaly gb inds) (calc_true_anomaly gb inds).
Proof using Type.
  intros Hf. unfold calc_true_anomaly. apply ds_bget. intros s Hs. sx. apply (ds_bind (on_arg Dg)).
  - destruct (otype s); [apply ds_selanom|exact (ds_selconv _ _ s (d_e2t _) Hf Hs)|exact (ds_selconv _ _ s (d_m2t _ (oopts s)) Hf Hs)].
  - intros x. bg t. eapply ds_blift; [apply assign_on, Dg_nan|]. intros row _. md.
Qed.
Lemma ds_calc_mean inds : forward inds -> dsim self (calc_mean_anomaly gb inds) (calc_mean_anomaly gb inds).
Proof using Type.
  intros Hf. unfold calc_mean_anomaly. apply ds_bget. intros s Hs. sx. apply (ds_bind (on_arg Dg)).
  - destruct (otype s); [exact (ds_selconv _ _ s (d_t2m _ _) Hf Hs)|exact (ds_selconv _ _ s (d_e2m _) Hf Hs)|apply ds_selanom].
  - intros x. bg t. eapply ds_blift; [apply assign_on, Dg_nan|]. intros row _. md.
Qed.
Lemma ds_calc_ecc inds : forward inds -> dsim self (calc_eccentric_anomaly gb inds) (calc_eccentric_anomaly gb inds).
Proof using Type.
  intros Hf. unfold calc_eccentric_anomaly. apply ds_bget. intros s Hs. sx.
  assert (T : forall x, dsim self
    (bind get (fun s => match oE s with Sc _ => raise TypeError | Arr _ _ d => bind (lift (assign d inds (on_arg Dg x))) (fun row => modify (with_E (fun _ => fresh [length row] row))) end))
    (bind get (fun s => match oE s with Sc _ => raise TypeError | Arr _ _ d => bind (lift (assign d inds x)) (fun row => modify (with_E (fun _ => fresh [length row] row))) end))).
  { intros x. bg t. destruct (oE t) as [y|sh m d]; cbn [on_arg]; [apply ds_raise|]. eapply ds_blift; [apply assign_on, Dg_nan|]. intros row _. md. now rewrite map_length, fresh_on. }
  destruct (otype s).
  - eapply ds_bind; [exact (ds_selconv _ _ s (d_t2e _) Hf Hs)|exact T].
  - eapply ds_bind; [apply ds_selanom|exact T].
  - rewrite Hs. eapply ds_bind; [apply ds_anom|]. intros an. eapply ds_blift; [apply sel_on|]. intros xa Ha. apply (ds_bind self); [apply ds_e|]. intros e.
    eapply (ds_blift self); [apply ds_self|]. intros xe He.
    apply (ds_bconv self (fun x e => mean_to_eccentric x e (oopts s))); [apply d_m2e|exact (sel_plain _ _ _ Hf Ha)|exact (sel_plain _ _ _ Hf He)|]. intros x. md.
Qed.
Lemma ds_calc_cart inds : dsim self (calculate_cartesian gb inds) (calculate_cartesian gb inds).
Proof using Type.
  unfold calculate_cartesian. bg s. rewrite num_sd. apply ds_blid; [reflexivity|]. intros ps. cbv zeta. rewrite mask_A6.
  set (dm := do_mask (okep s) ps). clearbody dm. destruct (negb (any dm)); [now apply ds_ret|]. apply ds_seq; [md|].
  apply (ds_bind (map A6)).
  - rewrite mget_maps. destruct (otype s); [now apply ds_ret| |]; (apply ds_seq; [now apply ds_calc_true|]; bg t; apply ds_ret; now rewrite mget_maps, set5_A6).
  - intros kep. bg t. eapply ds_blid; [apply from_k2c|]. intros c. md.
Qed.
Lemma ds_cart_check : dsim self (cart_check gb) (cart_check gb).
Proof using Type. unfold cart_check. bg s. destruct (oauto s && negb (odirect s)); [apply ds_calc_cart|now apply ds_ret]. Qed.
Ltac go := intros; cbv beta zeta; sx;
  first
  [ solve [auto 2 with degs nocore]
  | lazymatch goal with
    | |- dsim _ (bind get _) _ => let s := fresh "s" in bg s; go
    | |- dsim _ (bind (lift _) _) _ => apply ds_blid; [reflexivity|go]
    | |- dsim _ (bind _ (fun _ => _)) _ => first [apply ds_seq; [go|go]|apply (ds_bind self); [go|go]]
    | |- dsim _ (if ?c then _ else _) _ => destruct c; go
    | |- dsim _ (match ?c with _ => _ end) _ => destruct c; go
    | |- dsim self (lift _) _ => apply ds_lift, ds_self
    | |- dsim _ (ret _) _ => apply ds_ret; try reflexivity
    | |- dsim _ (raise _) _ => apply ds_raise
    | |- dsim _ (modify _) _ => md
    | _ => idtac
    end ].
Create HintDb degs.
Lemma ds_calc_kep3 inds : dsim self (calculate_kepler gb inds) (calculate_kepler gb inds). Proof using Type. apply ds_calc_kep. Qed.
Hint Resolve ds_kep_check ds_cart_check ds_calc_cart ds_calc_kep3 ds_e ds_a : degs.

(** getters *)
Lemma ds_cartesian : dsim self (get_cartesian gb) (get_cartesian gb). Proof using Type. unfold get_cartesian. go. Qed.
Lemma ds_kepler : dsim (map A6) (get_kepler gb) (get_kepler gb). Proof using Type. unfold get_kepler. go. Qed.
Lemma ds_r : dsim self (get_r gb) (get_r gb). Proof using Type. unfold get_r. go. Qed.
Lemma ds_v : dsim self (get_v gb) (get_v gb). Proof using Type. unfold get_v. go. Qed.
Lemma ds_period : dsim self (get_period gb) (get_period gb). Proof using Type. unfold get_period. go. Qed.
Hint Resolve ds_cartesian ds_r ds_v ds_period : degs.
Lemma ds_motion : dsim (map Dg) (get_mean_motion gb) (get_mean_motion gb).
Proof using Type.
  unfold get_mean_motion. bg s. apply (ds_bind self); [auto with degs|]. intros p. apply ds_ret. rewrite map_map. apply map_ext. intros x. now rewrite circle_deg, Dg_div.
Qed.
Lemma ds_ecc : dsim (on_arg Dg) (get_eccentric_anomaly gb) (get_eccentric_anomaly gb).
Proof using Type.
  unfold get_eccentric_anomaly. bg s. destruct (otype s).
  - apply ds_seq; [now apply ds_calc_ecc|go].
  - eapply ds_bind; [apply ds_anom|]. intros an. apply ds_ret. now rewrite map_length, fresh_on.
  - apply ds_seq; [now apply ds_calc_ecc|go].
Qed.
Lemma ds_true : dsim (map Dg) (get_true_anomaly gb) (get_true_anomaly gb).
Proof using Type. unfold get_true_anomaly. bg s. destruct (otype s); [apply ds_anom| |]; (apply ds_seq; [now apply ds_calc_true|go]). Qed.
Lemma ds_mean : dsim (map Dg) (get_mean_anomaly gb) (get_mean_anomaly gb).
Proof using Type. unfold get_mean_anomaly. bg s. destruct (otype s); [| |apply ds_anom]; (apply ds_seq; [now apply ds_calc_mean|go]). Qed.
Lemma ds_apo : dsim self (get_apoapsis gb) (get_apoapsis gb). Proof using Type. unfold get_apoapsis. go. Qed.
Lemma ds_peri : dsim self (get_periapsis gb) (get_periapsis gb). Proof using Type. unfold get_periapsis. go. Qed.
Lemma ds_longitude : dsim (map Dg) (get_mean_longitude gb) (get_mean_longitude gb).
Proof using Type.
  unfold get_mean_longitude. eapply ds_bind; [apply ds_mean|]. intros m. eapply ds_bind; [apply ds_kep_row|]. intros o. eapply ds_bind; [apply ds_kep_row|]. intros q.
  apply ds_ret. apply map3_maps. intros x y z. now rewrite <- !Dg_add.
Qed.
Lemma equi_A6 kep : kep_to_equi_cols true (map A6 kep) = map (last6 Dg) (kep_to_equi_cols false kep).
Proof using Type.
  rewrite !kep_to_equi_cols_map, !map_map. apply map_ext. intros c. rewrite deg_k2q_all. do 2 f_equal. destruct c as [b0 b1 b2 b3 b4 b5]. unfold ang6. cbn [s0 s1 s2 s3 s4 s5]. now rewrite !rad_deg.
Qed.
Lemma ds_equi : dsim (on_last Dg) (get_equinoctial gb) (get_equinoctial gb).
Proof using Type.
  unfold get_equinoctial. eapply ds_bind; [apply ds_kepler|]. intros k. eapply ds_bind; [apply ds_mean|]. intros m. bg s. cbv zeta.
  rewrite set5_A6, equi_A6. destruct (kep_to_equi_cols false (map2 set5 k m)) as [|x [|y t]]; now apply ds_ret.
Qed.
Lemma ds_velocity : dsim self (get_velocity gb) (get_velocity gb). Proof using Type. unfold get_velocity. go. Qed.
Lemma ds_speed : dsim self (get_speed gb) (get_speed gb).
Proof using Type.
  unfold get_speed. apply ds_seq; [auto with degs|]. eapply ds_bind; [apply ds_ecc|]. intros E. apply (ds_bind self); [auto with degs|]. intros a. apply (ds_bind self); [auto with degs|]. intros e.
  bg s. eapply ds_blift; [apply bcast1_on, Dg_nan|]. intros E' _. cbv zeta. apply (ds_bind self); [auto with degs|]. intros a'. bg t. apply ds_ret.
  replace (map3 (fun E a e => elliptic_radius E a e true) (map Dg E') a e) with (map3 (fun E a e => elliptic_radius E a e false) E' a e); [reflexivity|].
  symmetry. rewrite <- (map_id a), <- (map_id e) at 1. rewrite <- (map_id (map3 _ E' a e)). apply map3_maps. intros x y z. unfold elliptic_radius. now rewrite rad_deg.
Qed.

(** setters *)
Lemma ds_set_cart_row k v : dsim self (set_cart_row gb k v) (set_cart_row gb k v). Proof using Type. unfold set_cart_row. go. Qed.
Lemma set_row_A6 k cols vs : set_row k (map A6 cols) (map (hk k) vs) = map A6 (set_row k cols vs).
Proof using Type. unfold set_row. apply map2_maps. intros c x. destruct k as [|[|[|[|[|[|k]]]]]]; reflexivity. Qed.
Lemma ds_set_kep_row k v : dsim self (set_kep_row gb k (on_arg (hk k) v)) (set_kep_row gb k v).
Proof using Type.
  unfold set_kep_row. bg s. destruct (okro s); [apply ds_raise|]. rewrite map_length. eapply ds_blift; [apply bcast1_on, hk_nan|]. intros vs _. apply ds_seq; [|go].
  md. now rewrite set_row_A6.
Qed.
Lemma ds_set_anom v : dsim self (set_anom gb (on_arg Dg v)) (set_anom gb v). Proof using Type. exact (ds_set_kep_row 5 v). Qed.
Lemma ds_after_cart : dsim self (after_cart gb) (after_cart gb). Proof using Type. unfold after_cart. go. Qed.
Lemma ds_after_kep : dsim self (after_kep gb) (after_kep gb). Proof using Type. unfold after_kep. go. Qed.
Lemma ds_after_anom : dsim self (after_anom gb) (after_anom gb). Proof using Type. unfold after_anom. go. Qed.
Hint Resolve ds_after_cart ds_after_kep ds_after_anom ds_set_anom : degs.
Lemma ds_econv fn v (s : orb) : dconv fn -> plain v ->
  dsim self (bind (get_e gb) (fun e => bind (lift (fn (on_arg Dg v) (fresh [length e] e) true)) (set_anom gb)))
            (bind (get_e gb) (fun e => bind (lift (fn v (fresh [length e] e) false)) (set_anom gb))).
Proof using Type. intros C Pv. apply (ds_bind self); [auto with degs|]. intros e. apply ds_bconv; [exact C|exact Pv|apply plain_fresh|]. intros x. apply ds_set_anom. Qed.
Lemma ds_set_ecc v : plain v -> dsim self (set_eccentric_anomaly gb (on_arg Dg v)) (set_eccentric_anomaly gb v).
Proof using Type.
  intros Pv. unfold set_eccentric_anomaly. bg s. destruct (okro s); [apply ds_raise|]. apply ds_seq; [|auto with degs].
  destruct (otype s); [exact (ds_econv _ v s (d_e2t _) Pv)|auto with degs|exact (ds_econv _ v s (d_e2m _) Pv)].
Qed.
Lemma ds_set_true v : plain v -> dsim self (set_true_anomaly gb (on_arg Dg v)) (set_true_anomaly gb v).
Proof using Type.
  intros Pv. unfold set_true_anomaly. bg s. destruct (okro s); [apply ds_raise|]. apply ds_seq; [|auto with degs].
  destruct (otype s); [auto with degs|exact (ds_econv _ v s (d_t2e _) Pv)|exact (ds_econv _ v s (d_t2m _ _) Pv)].
Qed.
Lemma ds_set_mean v : plain v -> dsim self (set_mean_anomaly gb (on_arg Dg v)) (set_mean_anomaly gb v).
Proof using Type.
  intros Pv. unfold set_mean_anomaly. bg s. destruct (okro s); [apply ds_raise|]. apply ds_seq; [|auto with degs].
  destruct (otype s); [exact (ds_econv _ v s (d_m2t _ (oopts s)) Pv)|exact (ds_econv _ v s (d_m2e (oopts s)) Pv)|auto with degs].
Qed.
Lemma ds_set_motion v' v : dsim self (set_mean_motion gb v') (set_mean_motion gb v). Proof using Type. unfold set_mean_motion, set_period. go. Qed.
Lemma ds_set_r v : dsim self (set_r gb v) (set_r gb v). Proof using Type. unfold set_r. go. Qed.
Lemma ds_set_v v : dsim self (set_v gb v) (set_v gb v). Proof using Type. unfold set_v. go. Qed.
Hint Resolve ds_set_v : degs.
Lemma ds_set_velocity v : dsim self (set_velocity gb v) (set_velocity gb v). Proof using Type. unfold set_velocity. go. Qed.
Lemma ds_set_type t : dsim self (set_type gb t) (set_type gb t).
Proof using Type.
  unfold set_type. destruct (anomaly_of _) as [a|]; [|apply ds_raise]. bg s. destruct (anomaly_eqb _ _); [now apply ds_ret|]. apply ds_seq; [|md].
  destruct a; (eapply ds_bind; [first [apply ds_true|apply ds_ecc|apply ds_mean]|]; intros x; rewrite ?map_length, ?fresh_on; apply ds_set_anom).
Qed.
Lemma ds_set_equi l0 : dsim self (set_equinoctial gb (KMat (map (last6 Dg) l0))) (set_equinoctial gb (KMat l0)).
Proof using Type.
  unfold set_equinoctial. bg s. unfold equi_to_kep. cbn [on_cols rbind].
  assert (E : equi_to_kep_cols gb true (map (last6 Dg) l0) = map A6 (equi_to_kep_cols gb false l0)).
  { rewrite !equi_to_kep_cols_map, !map_map. apply map_ext. intros c. rewrite deg_q2k_all. do 2 f_equal. destruct c as [b0 b1 b2 b3 b4 b5]. unfold last6. cbn [s0 s1 s2 s3 s4 s5]. now rewrite rad_deg. }
  rewrite E. set (m := equi_to_kep_cols gb false l0). clearbody m. clear E.
  eapply (ds_blift (on_angles Dg)); [reflexivity|]. intros x Hx. apply ok_inj in Hx. subst x. cbn [on_angles]. rewrite !map_length, s5_A6, fresh_on.
  apply ds_seq; [|apply ds_set_mean, plain_fresh].
  assert (E : forall c0 : list (six V), map2 set_head (map A6 c0) (map A6 m) = map A6 (map2 set_head c0 m)) by (intros; now apply map2_maps).
  destruct m as [|a [|b t]]; cbn [map].
  * destruct (_ =? _); [|apply ds_raise]. md. f_equal. apply (E (okep s0)).
  * md. f_equal. rewrite !map_map. reflexivity.
  * destruct (_ =? _); [|apply ds_raise]. md. f_equal. apply (E (okep s0)).
Qed.
Lemma ds_propagate v : dsim self (propagate gb v) (propagate gb v).
Proof using Type.
  unfold propagate. bg s. cbv zeta. eapply ds_bind; [apply ds_mean|]. intros m. eapply ds_bind; [apply ds_motion|]. intros n. rewrite map_length. apply ds_blid; [reflexivity|]. intros ds.
  assert (E : map3 (fun m n dt => nmod (m + n * dt) (lit 360))%np (map Dg m) (map Dg n) ds = map Dg (map3 (fun m n dt => nmod (m + n * dt) (lit 2 * npi))%np m n ds)).
  { rewrite <- (map_id ds) at 1. apply map3_maps. intros x y z. now rewrite Dg_mul, Dg_add, wrap_mod. }
  rewrite E, map_length, fresh_on. apply ds_seq; [apply ds_set_mean, plain_fresh|go].
Qed.
Lemma ds_set_m inds v : dsim self (set_m inds v) (set_m inds v). Proof using Type. unfold set_m. go. Qed.

(** whole Kepler states *)
Definition krows (n : nat) (x : list V) : list V := map2 (fun p y => hk (p / n) y) (seq 0 (length x)) x.
Definition kon6 (v : arg V) : arg V :=
  match v with Arr [k] m x => Arr [k] m (krows 1 x) | Arr [k; n] m x => Arr [k; n] m (krows n x) | _ => v end.
Lemma krows_from n x a k : nth k (map2 (fun p y => hk (p / n) y) (seq a (length x)) x) NaN = hk ((a + k) / n) (nth k x NaN).
Proof using Type.
  revert a k. induction x as [|y x IH]; intros a [|k]; cbn [length seq map2 nth]; rewrite ?hk_nan; auto; [now rewrite Nat.add_0_r|]. rewrite IH. now rewrite Nat.add_succ_comm.
Qed.
Lemma krows_nth n x k : nth k (krows n x) NaN = hk (k / n) (nth k x NaN). Proof using Type. apply (krows_from n x 0). Qed.
Definition konr (h : nat -> V) : nat -> V := fun r => hk r (h r).
Lemma six_konr h : six_of (konr h) = A6 (six_of h). Proof using Type. reflexivity. Qed.
Lemma bcast2_krows r n v : mat6 v -> bcast2 r n (kon6 v) = rmap (map konr) (bcast2 r n v).
Proof using Type.
  intros (k & m & x & ->). cbn [kon6 bcast2 strip_ones]. change (@nan V NP_num) with NaN. destruct (negb (6 =? r)); auto. destruct (Nat.eqb_spec k n) as [->|Ne]; cbn [rmap].
  - f_equal. rewrite map_map. apply map_ext_in. intros p Hp. apply in_seq in Hp. apply functional_extensionality. intros q. unfold konr. rewrite krows_nth. f_equal.
    f_equal. rewrite Nat.div_add_l by lia. rewrite Nat.div_small by lia. lia.
  - destruct (Nat.eqb_spec k 1) as [->|Ne']; cbn [rmap]; auto. rewrite <- repeat_maps. do 2 f_equal. apply functional_extensionality. intros q. unfold konr. rewrite krows_nth. now rewrite Nat.div_1_r.
Qed.
Lemma whole_krows n v : mat6 v \/ vec6 v -> whole_value n (kon6 v) = rmap (map A6) (whole_value n v).
Proof using Type.
  assert (E : forall cs, Ok (map six_of (map konr cs)) = rmap (map A6) (Ok (map six_of cs))) by (intros cs; cbn [rmap]; rewrite !map_map; reflexivity).
  intros [H|(m & x & ->)].
  - pose proof (bcast2_krows 6 n v H) as Q. destruct H as (k & m & x & ->). cbn [kon6] in *. cbn [whole_value]. rewrite Q. now apply rbind_maps.
  - pose proof (bcast2_krows 6 n (Arr [6; 1] m x) ltac:(now exists 1, m, x)) as Q. cbn [kon6] in *. cbn [whole_value]. rewrite Q. now apply rbind_maps.
Qed.
Lemma ds_set_cart v : dsim self (set_cartesian gb v) (set_cartesian gb v). Proof using Type. unfold set_cartesian. go. Qed.
Lemma ds_set_kep v : mat6 v \/ vec6 v -> dsim self (set_kepler gb (kon6 v)) (set_kepler gb v).
Proof using Type.
  intros Hv. unfold set_kepler. bg s. destruct (okro s); [apply ds_raise|]. rewrite map_length. eapply ds_blift; [now apply whole_krows|]. intros cs _.
  apply ds_seq; [md|auto with degs].
Qed.
Lemma assign_cols_krows cols inds v : fits6 inds v -> assign_cols (map A6 cols) inds (kon6 v) = rmap (map A6) (assign_cols cols inds v).
Proof using Type.
  intros Hv. unfold assign_cols. rewrite map_length. destruct (resolve (length cols) inds) as [ps|]; cbn [rbind rmap]; auto.
  assert (G : mat6 v -> (rlet cs := bcast2 6 (length ps) (kon6 v) in Ok (put ps (map six_of cs) (map A6 cols)))
                        = rmap (map A6) (rlet cs := bcast2 6 (length ps) v in Ok (put ps (map six_of cs) cols))).
  { intros Q. rewrite (bcast2_krows 6 _ v Q). apply rbind_maps. intros cs. cbn [rmap]. f_equal. rewrite <- put_maps, !map_map. reflexivity. }
  destruct Hv as [Hv|[(m & x & ->) [z ->]]].
  - specialize (G Hv). destruct inds; try exact G. destruct Hv as (k & m & x & ->). reflexivity.
  - cbn [kon6 bcast1 strip_ones Nat.eqb rbind rmap]. rewrite <- (put_maps A6), <- (repeat_maps A6), <- six_konr. change (@nan V NP_num) with NaN. do 4 f_equal.
    apply functional_extensionality. intros q. unfold konr. now rewrite krows_nth, Nat.div_1_r.
Qed.
Definition kkey (k : nat * option (arg V)) : nat * option (arg V) := (fst k, option_map (on_arg (hk (fst k))) (snd k)).
Lemma keys_krows ks cols inds : assign_keys (map kkey ks) (map A6 cols) inds = (map A6 (fst (assign_keys ks cols inds)), snd (assign_keys ks cols inds)).
Proof using Type.
  revert cols. induction ks as [|[k [v|]] ks IH]; intros cols; cbn [map kkey fst snd option_map assign_keys]; auto.
  unfold assign_row. rewrite row_A6, (assign_on (hk k)) by apply hk_nan. destruct (assign (map (row_get k) cols) inds v) as [r|]; cbn [rbind rmap fst snd]; auto.
  rewrite set_row_A6. apply IH.
Qed.
(** keyword arguments with the angles in degrees *)
Definition krow6 (c : six (option (arg V))) : six (option (arg V)) := six_of (fun r => option_map (on_arg (hk r)) (row_get r c)).
Definition dkws (kw : kws V) : kws V := mkkws (kw_cartesian kw) (option_map kon6 (kw_kepler kw)) (kw_m kw) (kw_c kw) (krow6 (kw_k kw)).
Definition kep_fits (inds : Idx) (kw : kws V) : Prop := forall v, kw_kepler kw = Some v -> fits6 inds v.
Lemma some_krow6 c : some6 (krow6 c) = some6 c.
Proof using Type. unfold some6, krow6, six_of. cbn [s0 s1 s2 s3 s4 s5 row_get]. assert (Q : forall A B (f : A -> B) o, is_some (option_map f o) = is_some o) by (now intros ? ? ? []). now rewrite !Q. Qed.
Lemma ds_mark_cart inds : dsim self (mark_cart gb inds) (mark_cart gb inds). Proof using Type. unfold mark_cart. go. Qed.
Lemma ds_mark_kep inds : dsim self (mark_kep gb inds) (mark_kep gb inds). Proof using Type. unfold mark_kep. go. Qed.
Hint Resolve ds_mark_cart ds_mark_kep : degs.
Lemma ds_update inds kw : kep_fits inds kw -> dsim self (update gb inds (dkws kw)) (update gb inds kw).
Proof using Type.
  intros Fk. unfold update. bg s. destruct kw as [oc ok om c k]. unfold dkws, kep_fits in *. cbn [kw_cartesian kw_kepler kw_m kw_c kw_k] in *.
  destruct oc as [v|]; [go|]. destruct ok as [v|]; cbn [option_map].
  { destruct (okro s); [apply ds_raise|]. eapply ds_blift; [exact (assign_cols_krows (okep s) inds v (Fk v eq_refl))|]. intros cs _. apply ds_seq; [md|auto with degs]. }
  cbv zeta. rewrite !some_krow6. destruct (some6 c && ocro s); [apply ds_raise|]. destruct (some6 k && okro s); [apply ds_raise|]. destruct (some6 k && some6 c); [apply ds_raise|].
  apply ds_seq; [go|]. apply ds_seq.
  - destruct (some6 c); [|now apply ds_ret]. apply ds_seq; [|auto with degs]. intros t Ht. sx. destruct (assign_keys (keys c) (ocart t) inds) as [cs r]. cbn [fst snd]. split; [exact Ht|]. now rewrite rmap_id.
  - destruct (some6 k); [|now apply ds_ret]. apply ds_seq; [|auto with degs]. intros t Ht. sx. change (keys (krow6 k)) with (map kkey (keys k)). rewrite keys_krows.
    destruct (assign_keys (keys k) (okep t) inds) as [cs r]. cbn [fst snd]. split; [exact Ht|]. now rewrite rmap_id.
Qed.
Lemma nan_A6 n : repeat nan6c n = map A6 (repeat nan6c n).
Proof using Type. rewrite <- repeat_maps. reflexivity. Qed.
Lemma nan_Dg n : repeat (@nan V NP_num) n = map Dg (repeat nan n).
Proof using Type. rewrite <- repeat_maps. change (@nan V NP_num) with NaN. now rewrite Dg_nan. Qed.
Lemma ds_add n kw : (forall k, kep_fits (IRange k (k + n)) kw) -> dsim self (add_orbits gb n (dkws kw)) (add_orbits gb n kw).
Proof using Type.
  intros Fk. unfold add_orbits. bg s. cbv zeta. rewrite num_sd.
  apply ds_seq; [md|]. apply ds_seq; [md|].
  apply ds_seq. { md. f_equal. now rewrite map_app, <- nan_A6. }
  apply ds_seq. { md. f_equal. now rewrite map_app, <- nan_Dg. }
  apply ds_seq. { destruct (oE s) as [x|sh m d]; cbn [on_arg]; [apply ds_raise|]. md. f_equal. now rewrite map_length, <- fresh_on, map_app, <- nan_Dg. }
  apply ds_seq. { md. f_equal. now rewrite map_app, <- nan_Dg. }
  apply ds_seq; [md|]. apply ds_seq; [md|]. change (kw_m (dkws kw)) with (kw_m kw). apply ds_seq; [go|].
  change (drop_m (dkws kw)) with (dkws (drop_m kw)). apply ds_update, Fk.
Qed.
Lemma del_maps {A} (f : A -> A) inds q : del inds (map f q) = rmap (map f) (del inds q).
Proof using Type. unfold del. rewrite map_length. destruct (resolve_del (length q) inds); cbn; auto. now rewrite delete_maps. Qed.
Lemma del_arg_on f inds v : del_arg inds (on_arg f v) = rmap (on_arg f) (del_arg inds v).
Proof using Type.
  destruct v as [x|s m d]; cbn [on_arg del_arg]; auto. rewrite map_length. destruct (resolve_del (length d) inds); cbn [rbind rmap]; auto. now rewrite delete_maps, map_length, fresh_on.
Qed.
Lemma ds_delete inds : dsim self (delete inds) (@delete V inds).
Proof using Type.
  unfold delete. bg s. do 2 (apply ds_blid; [reflexivity|]; intros ?; apply ds_seq; [md|]). do 2 (eapply ds_blift; [apply del_maps|]; intros ? _; apply ds_seq; [md|]).
  eapply ds_blift; [apply del_arg_on|]. intros ? _. apply ds_seq; [md|]. eapply ds_blift; [apply del_maps|]. intros ? _. apply ds_seq; [md|]. go.
Qed.
Lemma ds_allocate n : dsim self (allocate n) (allocate n).
Proof using Type. unfold allocate. apply ds_modify; [intros s Hs; exact Hs|]. intros s Hs. unfold sd. sx. now rewrite <- fresh_on, <- nan_A6, <- nan_Dg. Qed.
Lemma item_sd inds s : odeg s = false -> getitem inds (sd s) = rmap sd (getitem inds s).
Proof using Type.
  intros Hs. unfold getitem. sx. rewrite !map_length. destruct (resolve (length (om s)) inds) as [ps|]; cbn [rbind rmap]; auto.
  destruct (resolve (length (okep s)) inds) as [ps'|]; cbn [rbind rmap]; auto. rewrite !pick_map. unfold sd. sx. now rewrite <- fresh_on, <- nan_Dg.
Qed.
Lemma ds_next : dsim sd next next.
Proof using Type.
  unfold next. bg s. rewrite num_sd. destruct (oit s) as [k|]; [|apply ds_raise]. destruct (k <? OrbitModel.num s); [|apply ds_raise].
  apply ds_seq; [md|]. apply ds_bget. intros t Ht. apply ds_lift. now apply item_sd.
Qed.
(** the same method call with the angles of its arguments in degrees *)
Definition dop (o : op V) : op V :=
  match o with
  | OSetKepRow k v => OSetKepRow k (on_arg (hk k) v) | OSetKep v => OSetKep (kon6 v)
  | OSetTrue v => OSetTrue (on_arg Dg v) | OSetEcc v => OSetEcc (on_arg Dg v) | OSetMean v => OSetMean (on_arg Dg v)
  | OSetMeanMotion v => OSetMeanMotion (on_arg Dg v) | OSetEqui v => OSetEqui (on_last Dg v)
  | OUpdate inds kw => OUpdate inds (dkws kw) | OAdd n kw => OAdd n (dkws kw)
  | o => o
  end.
(** whole Kepler states are arrays with six rows; anomalies are floats or arrays lying in memory in order; equinoctial
    elements are not a (6,) array (C98_vector_refuted) *)
Definition deg_fits (o : op V) : Prop :=
  match o with
  | OSetKep v => mat6 v \/ vec6 v
  | OSetTrue v | OSetEcc v | OSetMean v => plain v
  | OSetEqui v => match v with KVec _ => False | _ => True end
  | OUpdate inds kw => kep_fits inds kw
  | OAdd n kw => forall k, kep_fits (IRange k (k + n)) kw
  | OCalcTrue inds | OCalcMean inds | OCalcEcc inds => forward inds
  | _ => True
  end.
Lemma ds_run o : deg_fits o -> dsim self (run_op gb (dop o)) (run_op gb o).
Proof using Type.
  destruct o; cbn [deg_fits dop run_op]; intros Hf; auto with degs nocore.
  - exact (ds_void _ _ _ ds_cartesian).
  - exact (ds_void _ _ _ ds_kepler).
  - exact (ds_void _ _ _ ds_true).
  - exact (ds_void _ _ _ ds_ecc).
  - exact (ds_void _ _ _ ds_mean).
  - exact (ds_void _ _ _ ds_period).
  - exact (ds_void _ _ _ ds_equi).
  - exact (ds_void _ _ _ ds_velocity).
  - exact (ds_void _ _ _ ds_speed).
  - apply ds_set_cart_row.
  - apply ds_set_kep_row.
  - apply ds_set_r.
  - apply ds_set_cart.
  - now apply ds_set_kep.
  - now apply ds_set_true.
  - now apply ds_set_ecc.
  - now apply ds_set_mean.
  - apply ds_raise.
  - apply ds_set_motion.
  - destruct v as [| | |c|l]; [| | |destruct Hf|apply ds_set_equi]; unfold set_equinoctial; cbn [on_last]; bg s; eapply (ds_blift self); try reflexivity; discriminate.
  - apply ds_set_velocity.
  - apply ds_set_type.
  - apply ds_set_m.
  - md.
  - now apply ds_update.
  - now apply ds_calc_true.
  - now apply ds_calc_mean.
  - now apply ds_calc_ecc.
  - apply ds_propagate.
  - apply ds_delete.
  - now apply ds_add.
  - apply ds_allocate.
  - unfold iter. md.
  - exact (ds_void _ _ _ ds_next).
Qed.
End Degrees.

(** ** The properties *)
(** Any sequence of method calls, with every angle in degrees, on the object with degrees=True: the same exceptions, and
    in the end the object that the calls in radians give, with its angles in degrees. *)
Theorem C98_history_partial : forall gb os s, odeg s = false -> (forall o, In o os -> deg_fits o) ->
  calls gb (map dop os) (sd s) = (sd (fst (calls gb os s)), snd (calls gb os s)).
Proof.
  intros gb os s. revert s. induction os as [|o os IH]; intros s Hs Hf; [reflexivity|]. cbn [map calls].
  destruct (ds_run gb o (Hf o (or_introl eq_refl)) s Hs) as [D E]. rewrite E, rmap_id. destruct (run_op gb o s) as [s1 r]. cbn [fst snd] in *.
  rewrite IH by (auto; intros; apply Hf; now right). destruct (calls gb os s1) as [s2 rs]. reflexivity.
Qed.
(** the method [m] on the object with degrees=True; [f]: the returned value with its angles in degrees *)
Definition in_degrees {A} (f : A -> A) (m : M A) : Prop := forall s, odeg s = false -> m (sd s) = (sd (fst (m s)), rmap f (snd (m s))).
(** what the getters return: the Cartesian state, a, e, period, speeds and apsides the same; angles and mean motion in degrees *)
Theorem C98_getters : forall gb : nat -> nat -> V,
  in_degrees (fun x => x) (get_cartesian gb) /\ in_degrees (fun x => x) (get_r gb) /\ in_degrees (fun x => x) (get_v gb) /\
  in_degrees (fun x => x) (get_velocity gb) /\ in_degrees (fun x => x) (get_speed gb) /\ in_degrees (fun x => x) (get_period gb) /\
  in_degrees (fun x => x) (get_apoapsis gb) /\ in_degrees (fun x => x) (get_periapsis gb) /\
  in_degrees (fun x => x) (get_kep_row gb 0) /\ in_degrees (fun x => x) (get_e gb) /\
  in_degrees (map (ang6 degrees)) (get_kepler gb) /\ in_degrees (map degrees) (get_true_anomaly gb) /\
  in_degrees (on_arg degrees) (get_eccentric_anomaly gb) /\ in_degrees (map degrees) (get_mean_anomaly gb) /\
  in_degrees (map degrees) (get_mean_longitude gb) /\ in_degrees (map degrees) (get_mean_motion gb) /\
  in_degrees (on_last degrees) (get_equinoctial gb) /\ in_degrees sd next.
Proof.
  intros gb. assert (W : forall A (f : A -> A) m, dsim f m m -> in_degrees f m) by (intros A f m Q s Hs; exact (proj2 (Q s Hs))).
  split; [apply W, ds_cartesian|]. split; [apply W, ds_r|]. split; [apply W, ds_v|]. split; [apply W, ds_velocity|]. split; [apply W, ds_speed|].
  split; [apply W, ds_period|]. split; [apply W, ds_apo|]. split; [apply W, ds_peri|]. split; [apply W, ds_a|]. split; [apply W, ds_e|].
  split; [apply W, ds_kepler|]. split; [apply W, ds_true|]. split; [apply W, ds_ecc|]. split; [apply W, ds_mean|]. split; [apply W, ds_longitude|].
  split; [apply W, ds_motion|]. split; [apply W, ds_equi|apply W, ds_next].
Qed.
(** the constructor, and indexing and copying *)
Definition set_deg (b : bool) (c : config V) : config V :=
  mkconfig (cf_auto c) (cf_direct c) (cf_G c) (cf_opts c) b (cf_type c) (cf_num c) (cf_kro c) (cf_cro c).
Theorem C98_construct : forall gb M0 c kw, kep_fits IAll kw ->
  init gb M0 (set_deg true c) (dkws kw) = rmap sd (init gb M0 (set_deg false c) kw) /\
  forall inds s, odeg s = false -> getitem inds (sd s) = rmap sd (getitem inds s).
Proof.
  intros gb M0 c kw Hf. split; [|intros inds s Hs; now apply item_sd].
  unfold init. cbn [set_deg cf_type cf_auto cf_direct cf_G cf_deg cf_opts cf_num cf_kro cf_cro]. destruct (anomaly_of (cf_type c)) as [t|]; [|reflexivity]. cbv zeta.
  set (s := mkorb M0 (cf_G c) (cf_auto c) (cf_direct c) false false false t (cf_opts c) [] [] [] [] (fresh [0] []) [] [] [] None).
  match goal with |- context [mkorb M0 ?a ?b ?d ?e ?f true ?h ?k ?m ?n ?o ?p ?q ?r ?x ?y ?z] => change (mkorb M0 a b d e f true h k m n o p q r x y z) with (sd s) end.
  change (kw_m (dkws kw)) with (kw_m kw). change (drop_m (dkws kw)) with (dkws (drop_m kw)).
  match goal with |- context [?m' (sd s)] => match goal with |- context [?m s] =>
    lazymatch m with sd => fail | _ => assert (Q : dsim (fun x => x) m' m) end end end.
  { apply ds_seq; [apply ds_allocate|]. apply ds_seq.
    - destruct (kw_m kw) as [v|]; [apply ds_set_m|now apply ds_ret].
    - destruct (cf_num c =? 0); [now apply ds_ret|]. exact (ds_update gb IAll (drop_m kw) Hf). }
  destruct (Q s eq_refl) as [_ ->]. match goal with |- context [?m s] => lazymatch m with sd => fail | _ => destruct (m s) as [s1 [x|e]] end end; reflexivity.
Qed.
(** One set of equinoctial elements as a (6,) array, as [orb.equinoctial] itself returns it for a single orbit: with
    degrees=False the assignment raises TypeError, with degrees=True it succeeds. *)
Definition ex_manual (o : solver_options V) : OrbitModel.orb V :=
  mkorb (Fin 5) (Fin 79720) false false false false false AEcc o [Fin 0] [mk6 NaN NaN NaN NaN NaN NaN] [mk6 (Fin 7000) (Fin (1 / 2)) (Fin 1) (Fin 2) (Fin 3) (Fin (1 / 4))]
        [NaN] (fresh [1] [NaN]) [NaN] [false] [false] None.
Theorem C98_vector_refuted : forall gb o (c : six V),
  snd (run_op gb (OSetEqui (KVec c)) (ex_manual o)) = Raise TypeError /\
  snd (run_op gb (dop (OSetEqui (KVec c))) (sd (ex_manual o))) = Ok tt.
Proof.
  intros gb o c. cbn [run_op dop on_last]. unfold set_equinoctial, bind, get, lift, equi_to_kep. cbn [on_cols rbind]. rewrite !equi_to_kep_cols_map. cbn [map].
  generalize (q2k_col (odeg (ex_manual o)) c) (q2k_col (odeg (sd (ex_manual o))) (last6 Dg c)). intros k k'. split; reflexivity.
Qed.
(** Mean anomalies assigned as a reversed view to two circular orbits of type eccentric: stored in the wrong order with
    degrees=False (np.nditer follows memory, see C24), in the right order with degrees=True (np.radians makes a copy). *)
Definition ex_two (o : solver_options V) : OrbitModel.orb V :=
  mkorb (Fin 5) (Fin 79720) false false false false false AEcc o [Fin 0; Fin 0] (repeat nan6c 2) (repeat (mk6 (Fin 7000) (Fin 0) (Fin 1) (Fin 2) (Fin 3) (Fin 0)) 2)
        [NaN; NaN] (fresh [2] [NaN; NaN]) [NaN; NaN] [false; false] [false; false] None.
Lemma set_mean_manual gb (s : OrbitModel.orb V) v r vs : oauto s = false -> odirect s = false -> okro s = false -> otype s = AEcc ->
  mean_to_eccentric v (fresh [length (map (row_get 1) (okep s))] (map (row_get 1) (okep s))) (oopts s) (odeg s) = Ok r -> bcast1 (length (okep s)) r = Ok vs ->
  okep (fst (set_mean_anomaly gb v s)) = set_row 5 (okep s) vs.
Proof.
  intros Ha Hd Hk Ht E B. unfold set_mean_anomaly, get_e, get_kep_row, kep_check, set_anom, set_kep_row, after_anom.
  unfold bind, get, lift, modify, ret. rewrite Hk, Ht, Ha. cbn [andb]. rewrite E, Hk, B. cbn [with_kep odirect]. rewrite Hd. cbv beta iota. unfold with_cf, with_kep. cbn [odirect]. rewrite Hd. reflexivity.
Qed.
Theorem C98_reversed_refuted : forall gb o t x y, tol o = Fin t -> (0 < t)%R ->
  let set := OSetMean (Arr [2] [1; 0] [Fin x; Fin y]) in
  map s5 (okep (fst (run_op gb set (ex_two o)))) = [Fin y; Fin x] /\
  map s5 (okep (fst (run_op gb (dop set) (sd (ex_two o))))) = [degrees (Fin x); degrees (Fin y)].
Proof.
  intros gb o t x y Ht Hp. cbv zeta. cbn [run_op dop on_arg map].
  assert (Z : forall M, m2e_el o (Fin M) (Fin 0) = Fin M) by (intros M; now apply (m2e_el_zero o t)).
  assert (E1 : mean_to_eccentric (Arr [2] [1; 0] [Fin x; Fin y]) (fresh [2] [Fin 0; Fin 0]) o false = Ok (fresh [2] [Fin y; Fin x])).
  { unfold mean_to_eccentric. cbn [in_rad out_deg broadcast fresh shape_eqb Nat.eqb andb rbind length seq nditer map nth map2]. now rewrite !Z. }
  assert (E2 : mean_to_eccentric (Arr [2] [1; 0] [Dg (Fin x); Dg (Fin y)]) (fresh [2] [Fin 0; Fin 0]) o true = Ok (fresh [2] [Dg (Fin x); Dg (Fin y)])).
  { unfold mean_to_eccentric. cbn [in_rad out_deg amap broadcast fresh shape_eqb Nat.eqb andb rbind length seq nditer map nth map2]. rewrite !rad_deg, !Z. reflexivity. }
  split.
  - rewrite (set_mean_manual gb (ex_two o) _ _ [Fin y; Fin x] eq_refl eq_refl eq_refl eq_refl E1 eq_refl). reflexivity.
  - rewrite (set_mean_manual gb (sd (ex_two o)) _ _ [Dg (Fin x); Dg (Fin y)] eq_refl eq_refl eq_refl eq_refl E2 eq_refl). reflexivity.
Qed.
(** ** Hypotheses met: one orbit is set in degrees, propagated by a minute, its type changed and its mean anomaly set to 90 degrees *)
Example C98_example : forall gb o,
  let os := [OSetKep ex_kep6; OPropagate (Sc (Fin 60)); OSetType "mean"; OSetMean (Sc (Fin (PI / 2)))] in
  (exists a b c d, map dop os = [OSetKep (Arr [6] (seq 0 6) [Fin 7000; Fin (1 / 2); Fin a; Fin b; Fin c; Fin d]); OPropagate (Sc (Fin 60)); OSetType "mean"; OSetMean (Sc (Fin 90))]) /\
  calls gb (map dop os) (sd (ex_obj o)) = (sd (fst (calls gb os (ex_obj o))), snd (calls gb os (ex_obj o))) /\
  okep (fst (run_op gb (OSetKep ex_kep6) (ex_obj o))) = [mk6 (Fin 7000) (Fin (1 / 2)) (Fin 1) (Fin 2) (Fin 3) (Fin (1 / 4))].
Proof.
  intros gb o os. split; [|split; [|reflexivity]].
  - exists (1 * (180 / PI))%R, (2 * (180 / PI))%R, (3 * (180 / PI))%R, (1 / 4 * (180 / PI))%R. unfold os, ex_kep6. cbn [map dop kon6 on_arg]. unfold krows. cbn [map2 seq length Nat.div Nat.divmod fst hk Nat.ltb Nat.leb].
    rewrite !degrees_scale. cbn [scale]. do 4 f_equal. do 4 f_equal. pose proof PI_RGT_0. field. lra.
  - apply C98_history_partial; [reflexivity|]. intros q [<-|[<-|[<-|[<-|[]]]]]; cbn [deg_fits plain]; auto. right. now exists (seq 0 6), [Fin 7000; Fin (1 / 2); Fin 1; Fin 2; Fin 3; Fin (1 / 4)].
Qed.
Example C98_init_example : forall gb c,
  init gb (Fin 5) (set_deg true c) (dkws (mkkws None None None no6 (mk6 (Some (Sc (Fin 7000))) (Some (Sc (Fin (1 / 2)))) (Some (Sc (Fin 1))) None None None)))
  = rmap sd (init gb (Fin 5) (set_deg false c) (mkkws None None None no6 (mk6 (Some (Sc (Fin 7000))) (Some (Sc (Fin (1 / 2)))) (Some (Sc (Fin 1))) None None None))).
Proof. intros gb c. apply (C98_construct gb (Fin 5) c). intros v. discriminate. Qed.
