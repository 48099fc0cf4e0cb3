(** * C91: what an Orbit shows in IEEE binary64: Cartesian states next to assigned Kepler elements and the reverse *)
From Coq Require Import Bool ZArith QArith Qreals Reals Lra Lia List Arith.
From Flocq Require Import Core.Core IEEE754.BinarySingleNaN.
From Verif Require Import NP NPReal NPFloat FloatBase NPB64 KeplerModel ConvModel UnitModel OrbitModel Lists ConvCols ArraySpec PropsArray PropsAnomaly
  OrbitLists OrbitBase OrbitOps OrbitSetters OrbitGet OrbitSpec PropsOrbitWidth PropsOrbitDirect PropsOrbitLazy PropsOrbitWrite.
From Verif Require Import Spec RealBase KepReal PropsKep FloatAcc PropsFloat PropsFloatAcc PropsFloatC2K PropsFloatPropC PropsB64.
From Verif Require Import B64Sim B64Pi B64Lib B64K2C B64C2K PropsB64Conv.
Import ListNotations.
Local Open Scope R_scope.

(** ** Reading the Cartesian states after an assignment to orb.kepler, any scalar type *)
Section Read.
Context {F : Type} `{NP F}.
Lemma cart_after_kep gb0 gb1 gb n v (s0 s : OrbitModel.orb F) ks j k m : aligned n s0 -> wfv v -> set_kepler gb0 v s0 = (s, Ok tt) ->
  oauto s0 = true \/ odirect s0 = true -> snd (get_kepler gb1 s) = Ok ks -> nth_error ks j = Some k -> nan6 k = false -> nth_error (om s0) j = Some m ->
  aligned n s /\ settings s = settings s0 /\ om s = om s0 /\
  exists cs g, snd (get_cartesian gb s) = Ok cs /\ nth_error cs j = Some (cconv s0 (nu1 s0 g k) k m).
Proof.
  intros A Hv E Hau Hk Hj Hn Hm. pose proof A as [Hs HE]. rewrite (set_kepler_eq gb0 n) in E by auto. destruct (okro s0); [discriminate|].
  destruct (whole_value n v) as [ks0|] eqn:Ew; [|discriminate]. injection E as E. assert (L : length ks0 = n) by (eapply whole_value_length; eauto).
  set (t := with_kep (fun _ => ks0) s0) in *. assert (At : aligned n t) by now apply aligned_with_kep.
  assert (A' : aligned n s) by (rewrite <- E; now apply aligned_aft_kep). pose proof (proj1 At) as Ht. pose proof (proj1 A') as Hs'.
  assert (St : settings s = settings t) by (rewrite <- E; now apply (aft_kep_settings gb0 n)). assert (S0 : settings t = settings s0) by reflexivity.
  assert (Om : om s = om t). { rewrite <- E. unfold aft_kep. destruct (call_spec gb0 n t Ht) as [_ (_ & _ & X & _)]. destruct (odirect t); auto. }
  split; [auto|]. split; [congruence|]. split; [exact Om|].
  assert (Ks : ks = ks0).
  { rewrite (get_kepler_eq gb1 n) in Hk by auto. cbn [snd] in Hk. injection Hk as Hk. rewrite <- Hk.
    rewrite (kchk_keeps gb1 n) by (auto; rewrite <- E; now apply (after_kep_fresh gb0 n)). rewrite <- E. rewrite (aft_kep_okep gb0 n) by auto. reflexivity. }
  subst ks0. rewrite (get_cartesian_eq gb n) by auto. cbn [snd]. exists (ocart (cchk gb s)).
  assert (Hjn : (j < n)%nat) by (rewrite <- L; eapply nth_error_lt; eauto).
  assert (V : forall s1 s2 g (k : six F) m, settings s1 = settings s2 -> cconv s1 (nu1 s1 g k) k m = cconv s2 (nu1 s2 g k) k m).
  { intros s1 s2 g k1 m1 Q. unfold cconv, nu1. rewrite (mu_of_settings s1 s2 m1 Q). apply settings_eq in Q. destruct Q as (_ & _ & _ & _ & _ & _ & -> & -> & ->). reflexivity. }
  destruct (odirect s0) eqn:Ed.
  - assert (Es : s = call_ gb0 t) by (rewrite <- E; unfold aft_kep; change (odirect t) with (odirect s0); now rewrite Ed).
    destruct (col_ex n t j Ht Hjn) as (c1 & k1 & m1 & cb & kb & C).
    destruct (call_spec gb0 n t Ht) as [_ (_ & _ & _ & _ & _ & _ & KA)]. destruct (KA _ _ _ _ _ _ C) as (c' & k' & cb' & kb' & C' & _ & R).
    assert (k1 = k) by (destruct C as [_ Q _ _ _]; change (okep t) with ks in Q; congruence). assert (m1 = m) by (destruct C as [_ _ Q _ _]; change (om t) with (om s0) in Q; congruence). subst k1 m1.
    destruct R as [[[R|R] _]|(_ & _ & _ & R)]; [discriminate|congruence|].
    assert (Z : lazy t && typed t && negb kb && negb (nan6 c1) = false).
    { unfold lazy. change (odirect t) with (odirect s0). rewrite Ed. cbn. rewrite andb_false_r. reflexivity. }
    destruct (R Z) as [_ (g & ->)]. exists g. split; [reflexivity|].
    rewrite cchk_id; [|unfold lazy; pose proof (settings_eq _ _ St) as (_ & _ & -> & -> & _); change (odirect t) with (odirect s0); rewrite Ed; apply andb_false_r].
    rewrite Es, (col_c _ _ _ _ _ _ _ C'). reflexivity.
  - assert (Es : s = with_kf all_true (with_cf all_false t)) by (rewrite <- E; unfold aft_kep; change (odirect t) with (odirect s0); now rewrite Ed).
    assert (Ea : oauto s0 = true) by (destruct Hau; congruence).
    destruct (col_ex n s j Hs' Hjn) as (c1 & k1 & m1 & cb & kb & C).
    assert (k1 = k) by (destruct C as [_ Q _ _ _]; rewrite Es in Q; change (nth_error ks j = Some k1) in Q; congruence).
    assert (m1 = m) by (destruct C as [_ _ Q _ _]; rewrite Es in Q; change (nth_error (om s0) j = Some m1) in Q; congruence). subst k1 m1.
    assert (Cb : cb = false). { destruct C as [_ _ _ Q _]. rewrite Es in Q. change (nth_error (all_false (ocf s0)) j = Some cb) in Q. unfold all_false in Q. rewrite nth_error_map in Q. destruct (nth_error (ocf s0) j); [|discriminate]. cbn in Q. congruence. }
    assert (Kb : kb = true). { destruct C as [_ _ _ _ Q]. rewrite Es in Q. change (nth_error (all_true (okf s0)) j = Some kb) in Q. unfold all_true in Q. rewrite nth_error_map in Q. destruct (nth_error (okf s0) j); [|discriminate]. cbn in Q. congruence. }
    subst cb kb. destruct (cchk_spec gb n s Hs') as [_ (_ & _ & _ & _ & _ & _ & KS)]. destruct (KS _ _ _ _ _ _ C) as (c'' & k'' & cb'' & kb'' & C'' & _ & R).
    assert (Z : lazy s = true) by (unfold lazy; pose proof (settings_eq _ _ St) as (_ & _ & -> & -> & _); change (oauto t) with (oauto s0); change (odirect t) with (odirect s0); now rewrite Ea, Ed).
    rewrite Z in R. cbn [andb negb] in R. destruct R as [[[R|R] _]|(_ & _ & _ & R)]; [discriminate|congruence|].
    rewrite andb_false_r in R. destruct (R eq_refl) as [_ (g & ->)]. exists g. split; [reflexivity|].
    rewrite (col_c _ _ _ _ _ _ _ C''). f_equal. apply V. congruence.
Qed.
End Read.

(** finite doubles are not NaN *)
Lemma fin_nan6 L (c : six b64) : fin64 c -> @nan6 b64 (NP_b64 L) c = false.
Proof.
  assert (Q : forall x : b64, is_finite x = true -> @isnan b64 (NP_b64 L) x = false).
  { intros x Hx. unfold isnan. cbn [eqb NP_b64]. rewrite Beqb_refl. destruct x; (discriminate || reflexivity). }
  intros (F0 & F1 & F2 & F3 & F4 & F5). unfold nan6. now rewrite !Q.
Qed.
Lemma tame_kep_fin L mu k : tame_kep L mu k -> fin64 k.
Proof.
  intros (A & B & _ & C). split; [apply A|]. split; [apply B|]. repeat split; apply C; cbn [In]; tauto.
Qed.
Lemma tame_cart_fin mu c : tame_cart mu c -> fin64 c.
Proof.
  intros (p & q & w & _ & _ & _ & _ & (A & _) & (B & _) & _). repeat split; first [apply (A _); cbn [In]; tauto|apply (B _); cbn [In]; tauto].
Qed.
Section Orbit.
Context (L : blib) (HL : lib64 L).
Notation B := (NP_b64 L).
(** the gravitational parameter the object works with: G * (M0 + m) in double precision *)
Definition mu64 (s : orb b64) (m : b64) : b64 := @mul b64 B (oG s) (@add b64 B (oM0 s) m).
(** orb.kepler = v, then reading orb.cartesian *)
Theorem C91_kepler : forall gb0 gb1 gb n v (s0 s : orb b64) ks j k m K x, aligned n s0 -> wfv v -> @set_kepler b64 B gb0 v s0 = (s, Ok tt) ->
  oauto s0 = true \/ odirect s0 = true -> odeg s0 = false -> otype s0 = ATrue ->
  snd (@get_kepler b64 B gb1 s) = Ok ks -> nth_error ks j = Some k -> nth_error (om s0) j = Some m ->
  let mu := mu64 s0 m in
  tame_kep L mu k -> valid_kep (B2R mu) (real6 k) -> cond_ok (k_e (real6 k)) (k_nu (real6 k)) K -> K * ulp1 53 <= / 10000 -> state_of (B2R mu) (real6 k) x ->
  exists cs c, snd (@get_cartesian b64 B gb s) = Ok cs /\ nth_error cs j = Some c /\ fin64 c /\ close (130 * (K * ulp1 53)) (real6 c) x.
Proof using HL.
  intros gb0 gb1 gb n v s0 s ks j k m K x A Hv E Hau Hd Ht Hk Hj Hm mu T V C HK Sx.
  destruct (@cart_after_kep b64 B gb0 gb1 gb n v s0 s ks j k m A Hv E Hau Hk Hj (fin_nan6 L k (tame_kep_fin L mu k T)) Hm) as (_ & _ & _ & cs & g & Ec & Hc).
  exists cs, (@cconv b64 B s0 (@nu1 b64 B s0 g k) k m). split; [exact Ec|]. split; [exact Hc|].
  unfold cconv, nu1. rewrite Ht, Hd. change (@mu_of b64 B s0 m) with mu. assert (set5 k (s5 k) = k) as -> by now destruct k.
  destruct (C90_kep_to_cart L mu k K x (fun _ => mu) HL T V C HK Sx) as (y & Ey & Fy & Cl).
  destruct (@kep_to_cart_vec b64 B (fun _ => mu) k (MuS mu) false [mu] eq_refl) as [m' [Em Ev]]. assert (m' = mu) as -> by congruence.
  rewrite Ev in Ey. cbn [snd] in Ey. assert (@k2c_col b64 B (@edit_col b64 B false k) mu = y) as -> by congruence. auto.
Qed.
(** orb.cartesian = v, then reading orb.kepler *)
Theorem C91_cartesian : forall gb0 gb1 gb n v (s0 s : orb b64) cs j c m k, aligned n s0 -> wfv v -> @set_cartesian b64 B gb0 v s0 = (s, Ok tt) ->
  oauto s0 = true \/ odirect s0 = true -> odeg s0 = false -> otype s0 = ATrue ->
  snd (@get_cartesian b64 B gb1 s) = Ok cs -> nth_error cs j = Some c -> nth_error (om s0) j = Some m ->
  let mu := mu64 s0 m in
  tame_cart mu c -> valid_kep (B2R mu) k -> regular_kep (ulp1 53) k -> state_of (B2R mu) k (real6 c) ->
  exists ks k', snd (@get_kepler b64 B gb s) = Ok ks /\ nth_error ks j = Some k' /\ fin64 k' /\ elements_within (ulp1 53) (real6 k') k.
Proof using HL.
  intros gb0 gb1 gb n v s0 s cs j c m k A Hv E Hau Hd Ht Hc Hj Hm mu T V C Sx.
  destruct (@kep_after_cart b64 B gb0 gb1 gb n v s0 s cs j c m A Hv E Hau Hc Hj (fin_nan6 L c (tame_cart_fin mu c T)) Hm) as (_ & _ & _ & ks & g & Ek & Hk).
  exists ks, (@kconv b64 B s0 g c m). split; [exact Ek|]. split; [exact Hk|].
  unfold kconv. rewrite Ht, Hd. change (@mu_of b64 B s0 m) with mu.
  destruct (C90_cart_to_kep L mu k c (fun _ _ => mu) HL T V C Sx) as (y & Ey & Fy & Cl).
  destruct (@cart_to_kep_vec b64 B (fun _ _ => mu) c (MuS mu) false [mu] eq_refl) as [m' [Em Ev]]. assert (m' = mu) as -> by congruence.
  rewrite Ev in Ey. cbn [snd] in Ey. assert (@c2k_col b64 B false c mu = y) as -> by congruence. auto.
Qed.
End Orbit.

(** ** Whole histories of operations: of every orbit one element set is an accurate conversion of the other *)
Definition accurate_pair (L : blib) (mu : b64) (c k : six b64) : Prop :=
  (forall K x, tame_kep L mu k -> valid_kep (B2R mu) (real6 k) -> cond_ok (k_e (real6 k)) (k_nu (real6 k)) K -> K * ulp1 53 <= / 10000 ->
     state_of (B2R mu) (real6 k) x -> fin64 c /\ close (130 * (K * ulp1 53)) (real6 c) x)
  \/ (forall k0, tame_cart mu c -> valid_kep (B2R mu) k0 -> regular_kep (ulp1 53) k0 -> state_of (B2R mu) k0 (real6 c) ->
     fin64 k /\ elements_within (ulp1 53) (real6 k) k0).
Section History.
Context (L : blib) (HL : lib64 L).
#[local] Instance ieee' : NP b64 := NP_b64 L.
Lemma consistent_accurate (s : orb b64) c k m : otype s = ATrue -> odeg s = false -> consistent s c k m -> accurate_pair L (mu64 L s m) c k.
Proof using HL.
  intros Ht Hd [H|H].
  - right. intros k0 T V C Sx. destruct (H (fun _ _ => m)) as (k1 & E & Q). rewrite Ht in Q. subst k1. rewrite c2k_one, Hd in E.
    change (mu_orbit s m) with (mu64 L s m) in E.
    destruct (C90_cart_to_kep L _ k0 c (fun _ _ => m) HL T V C Sx) as (y & Ey & Fy & Cl).
    destruct (@cart_to_kep_vec b64 ieee' (fun _ _ => m) c (MuS (mu64 L s m)) false [mu64 L s m] eq_refl) as [m' [Em Ev]]. assert (m' = mu64 L s m) as -> by congruence.
    change (NP_b64 L) with ieee' in Ey. rewrite Ev in Ey. cbn [snd] in Ey. assert (y = k) as <- by congruence. auto.
  - left. intros K x T V C HK Sx. destruct (H (fun _ _ => m)) as (nu & Q & E). rewrite Ht in Q. subst nu. rewrite k2c_one, Hd in E.
    change (mu_orbit s m) with (mu64 L s m) in E. assert (set5 k (s5 k) = k) as Ek by now destruct k. rewrite Ek in E.
    destruct (C90_kep_to_cart L _ k K x (fun _ => m) HL T V C HK Sx) as (y & Ey & Fy & Cl).
    destruct (@kep_to_cart_vec b64 ieee' (fun _ => m) k (MuS (mu64 L s m)) false [mu64 L s m] eq_refl) as [m' [Em Ev]]. assert (m' = mu64 L s m) as -> by congruence.
    change (NP_b64 L) with ieee' in Ey. rewrite Ev in Ey. cbn [snd] in Ey. assert (y = c) as <- by congruence. auto.
Qed.
Theorem C91_lazy gb M0 cfg kw (s : orb b64) h : cf_auto cfg = true -> cf_direct cfg = false -> init gb M0 cfg kw = Ok s -> steps_ok lazy_ok h s ->
  otype (run h s) = ATrue -> odeg (run h s) = false ->
  forall g1 g2, exists s1 cs s2 ks, get_cartesian g1 (run h s) = (s1, Ok cs) /\ get_kepler g2 s1 = (s2, Ok ks) /\
    length cs = num (run h s) /\ length ks = num (run h s) /\
    forall j c k m, nth_error cs j = Some c -> nth_error ks j = Some k -> nth_error (om (run h s)) j = Some m ->
      has_nan c \/ has_nan k \/ accurate_pair L (mu64 L (run h s) m) c k.
Proof using HL.
  intros Ha Hd Hi Hh Ht Hg g1 g2. destruct (proj1 (C88_lazy L gb M0 cfg kw s h Ha Hd Hi Hh) g1 g2) as (s1 & cs & s2 & ks & E1 & E2 & L1 & L2 & P).
  exists s1, cs, s2, ks. repeat (split; [assumption|]). intros j c k m Hc Hk Hm. destruct (P j c k m Hc Hk Hm) as [N|[N|N]]; auto. right. right. now apply consistent_accurate.
Qed.
Theorem C91_direct gb M0 cfg kw (s : orb b64) h : cf_direct cfg = true -> init gb M0 cfg kw = Ok s -> steps_ok direct_ok h s ->
  otype (run h s) = ATrue -> odeg (run h s) = false ->
  forall j c k m, nth_error (ocart (run h s)) j = Some c -> nth_error (okep (run h s)) j = Some k -> nth_error (om (run h s)) j = Some m ->
    has_nan c \/ has_nan k \/ accurate_pair L (mu64 L (run h s) m) c k.
Proof using HL.
  intros Hd Hi Hh Ht Hg j c k m Hc Hk Hm. destruct (C88_direct L gb M0 cfg kw s h Hd Hi Hh j c k m Hc Hk Hm) as [N|[N|N]]; auto. right. right. now apply consistent_accurate.
Qed.
End History.

(** ** Hypotheses met: a new lazy or direct object with G = 1, M0 = 398600, after orb.kepler = (7000, 1/2, 1, 1, 1, 1) *)
Definition vec64 (k : six b64) : arg b64 := fresh [6%nat] [s0 k; s1 k; s2 k; s3 k; s4 k; s5 k].
Definition new64 (auto direct : bool) (M0 : b64) : orb b64 :=
  let N := NP_b64 lib_exact in
  mkorb M0 (bz 1 0) auto direct false false false ATrue (@default_options b64 N)
    [bz 0 0] [@nan6c b64 N] [@nan6c b64 N] [@nan b64 N] (fresh [1%nat] [@nan b64 N]) [@nan b64 N] [false] [false] None.
Lemma new64_aligned a d M0 : aligned 1 (new64 a d M0).
Proof. split; [now constructor|]. exists [@nan b64 (NP_b64 lib_exact)]. split; reflexivity. Qed.
Example C91_example : forall gb d, exists s cs c x,
  @set_kepler b64 (NP_b64 lib_exact) gb (vec64 ex_k) (new64 true d ex_mu) = (s, Ok tt) /\ snd (@get_kepler b64 (NP_b64 lib_exact) gb s) = Ok [ex_k] /\
  snd (@get_cartesian b64 (NP_b64 lib_exact) gb s) = Ok cs /\ nth_error cs 0 = Some c /\ fin64 c /\
  state_of 398600 (mk6 7000 (/ 2) 1 1 1 1) x /\ close (390 * ulp1 53) (real6 c) x.
Proof.
  intros gb d. set (sa := new64 true d ex_mu). destruct ex_kep_ok as (Em & Ek & Hv & HK & T). set (k := mk6 7000 (/ 2) 1 1 1 1) in *.
  pose proof (new64_aligned true d ex_mu) as A. fold sa in A.
  assert (W : @wfv b64 (vec64 ex_k)) by (split; reflexivity).
  pose (s := @aft_kep b64 (NP_b64 lib_exact) gb (with_kep (fun _ => [ex_k]) sa)).
  assert (E : @set_kepler b64 (NP_b64 lib_exact) gb (vec64 ex_k) sa = (s, Ok tt)).
  { rewrite (@set_kepler_eq b64 (NP_b64 lib_exact) gb 1) by (auto; apply A). reflexivity. }
  assert (H1 : lens 1 (with_kep (fun _ => [ex_k]) sa)) by (apply lens_with_kep; [apply A|reflexivity]).
  assert (Hks : snd (@get_kepler b64 (NP_b64 lib_exact) gb s) = Ok [ex_k]).
  { rewrite (@get_kepler_eq b64 (NP_b64 lib_exact) gb 1) by now apply lens_aft_kep.
    rewrite (@kchk_keeps b64 (NP_b64 lib_exact) gb 1) by (try (now apply lens_aft_kep); apply (@after_kep_fresh b64 (NP_b64 lib_exact) gb 1); auto).
    unfold s. now rewrite (@aft_kep_okep b64 (NP_b64 lib_exact) gb 1). }
  assert (Mu : mu64 lib_exact sa (bz 0 0) = ex_mu) by (apply B2SF_inj; vm_compute; reflexivity).
  destruct (C91_kepler lib_exact lib_exact_ok gb gb gb 1 _ sa s _ 0 ex_k (bz 0 0) 3 (peri_state 398600 k) A W E (or_introl eq_refl) eq_refl eq_refl Hks eq_refl eq_refl) as (cs & c & Ec & Hc & Fc & Cl);
    rewrite ?Mu, ?Em, ?Ek; auto.
  - pose proof ulp1_le. lra.
  - now apply state_of_peri.
  - exists s, cs, c, (peri_state 398600 k). repeat (split; [assumption|]). split; [now apply state_of_peri|].
    replace (390 * ulp1 53) with (130 * (3 * ulp1 53)) by ring. exact Cl.
Qed.
(** The same with M0 = 3/2 after orb.cartesian = (1, 0, 0, 0, 1, 1): the state of the orbit (3/2, 1/3, pi/4, 0, 0, 0) *)
Example C91_cart_example : forall gb d, exists s ks k',
  @set_cartesian b64 (NP_b64 lib_exact) gb (vec64 ex_x) (new64 true d (bz 3 (-1))) = (s, Ok tt) /\ snd (@get_cartesian b64 (NP_b64 lib_exact) gb s) = Ok [ex_x] /\
  snd (@get_kepler b64 (NP_b64 lib_exact) gb s) = Ok ks /\ nth_error ks 0 = Some k' /\ fin64 k' /\
  elements_within (ulp1 53) (real6 k') (mk6 (3 / 2) (/ 3) (PI / 4) 0 0 0).
Proof.
  intros gb d. set (sa := new64 true d (bz 3 (-1))). destruct ex_cart_ok as (Em & Ex & Hv & Rk & Sx & T). set (k := mk6 (3 / 2) (/ 3) (PI / 4) 0 0 0) in *.
  pose proof (new64_aligned true d (bz 3 (-1))) as A. fold sa in A.
  assert (W : @wfv b64 (vec64 ex_x)) by (split; reflexivity).
  pose (s := @aft_cart b64 (NP_b64 lib_exact) gb (with_cart (fun _ => [ex_x]) sa)).
  assert (E : @set_cartesian b64 (NP_b64 lib_exact) gb (vec64 ex_x) sa = (s, Ok tt)).
  { rewrite (@set_cartesian_eq b64 (NP_b64 lib_exact) gb 1) by (auto; apply A). reflexivity. }
  assert (H1 : lens 1 (with_cart (fun _ => [ex_x]) sa)) by (apply lens_with_cart; [apply A|reflexivity]).
  assert (Hcs : snd (@get_cartesian b64 (NP_b64 lib_exact) gb s) = Ok [ex_x]).
  { rewrite (@get_cartesian_eq b64 (NP_b64 lib_exact) gb 1) by now apply lens_aft_cart.
    rewrite (@cchk_keeps b64 (NP_b64 lib_exact) gb 1) by (try (now apply lens_aft_cart); apply (@after_cart_fresh b64 (NP_b64 lib_exact) gb 1); auto).
    unfold s. now rewrite (@aft_cart_ocart b64 (NP_b64 lib_exact) gb 1). }
  assert (Mu : mu64 lib_exact sa (bz 0 0) = bz 3 (-1)) by (apply B2SF_inj; vm_compute; reflexivity).
  destruct (C91_cartesian lib_exact lib_exact_ok gb gb gb 1 _ sa s _ 0 ex_x (bz 0 0) k A W E (or_introl eq_refl) eq_refl eq_refl Hcs eq_refl eq_refl) as (ks & k' & Ec & Hc & Fc & Cl);
    rewrite ?Mu, ?Em, ?Ex; auto.
  exists s, ks, k'. auto 10.
Qed.
