(** * C62: cart_to_kep in rounded arithmetic never leaves the domain of arccos *)
From Coq Require Import Reals QArith Qreals ZArith Lra Lia Psatz Bool List.
From Verif Require Import NP NPReal NPFloat FloatBase KeplerModel ConvModel ConvCols.
From Flocq Require Core.
Import ListNotations.
Local Open Scope R_scope.

(** ** What is assumed of the mathematics library: the two end values and the range of arccos *)
Definition acos_ok (p : Z) (L : libm) : Prop :=
  rnd p (l_acos L 1) = 0 /\ rnd p (l_acos L (-1)) = rnd p PI
  /\ forall x, -1 <= x <= 1 -> 0 <= rnd p (l_acos L x) <= rnd p PI.
(** the three components of the rounded cross product *)
Definition fcross (p : Z) (a0 a1 a2 b0 b1 b2 : R) : R * R * R :=
  (rnd p (rnd p (a1 * b2) - rnd p (a2 * b1)), rnd p (rnd p (a2 * b0) - rnd p (a0 * b2)),
   rnd p (rnd p (a0 * b1) - rnd p (a1 * b0))).
(** a finite value between the bounds *)
Definition between (lo hi : R) (a : num) : Prop := exists x, a = Fin x /\ lo <= x <= hi.
Definition finite (a : num) : Prop := exists x, a = Fin x.

Section Float.
Context (p : Z) (Hp : (1 < p)%Z) (L : libm).
#[local] Instance NPf : NP num := NP_rd (rnd p) L.
Notation rnd := (rnd p).
Local Notation "x +! y" := (rnd (x + y)) (at level 50).

Lemma f_lit q : lit q = Fin (rnd (Q2R q)). Proof. reflexivity. Qed.
Lemma f_0 : lit 0 = Fin 0.
Proof. rewrite f_lit. f_equal. rewrite RMicromega.Q2R_0. now apply rnd_0. Qed.
Lemma f_1 : lit 1 = Fin 1.
Proof. rewrite f_lit. f_equal. rewrite RMicromega.Q2R_1. now apply rnd_1. Qed.
Lemma f_m1 : lit (-1) = Fin (-1).
Proof.
  rewrite f_lit. f_equal. replace (Q2R (-1)) with (- (1)) by (unfold Q2R; cbn; lra).
  apply rnd_fmt, fmt_opp, fmt_1; lia.
Qed.
Lemma f_add x y : add (Fin x) (Fin y) = Fin (rnd (x + y)). Proof. reflexivity. Qed.
Lemma f_sub x y : sub (Fin x) (Fin y) = Fin (rnd (x - y)). Proof. reflexivity. Qed.
Lemma f_mul x y : mul (Fin x) (Fin y) = Fin (rnd (x * y)). Proof. reflexivity. Qed.
Lemma f_div x y : y <> 0 -> div (Fin x) (Fin y) = Fin (rnd (x / y)).
Proof. intros. cbn. destruct (Req_EM_T y 0); easy. Qed.
Lemma f_acos x : -1 <= x <= 1 -> narccos (Fin x) = Fin (rnd (l_acos L x)).
Proof. intros [? ?]. cbn. destruct (Rle_dec (-1) x), (Rle_dec x 1); easy. Qed.
Lemma f_norm x y z : vnorm (Fin x, Fin y, Fin z) = Fin (fnorm p x y z).
Proof.
  cbn. destruct Rlt_dec as [H|_]; [|reflexivity]. exfalso. apply (Rlt_not_le _ _ H).
  assert (P : forall t, 0 <= rnd (t * t)) by (intros; apply rnd_nonneg; [lia|nra]).
  pose proof (P x). pose proof (P y). pose proof (P z).
  apply rnd_nonneg; [lia|]. assert (0 <= rnd (rnd (x * x) + rnd (y * y))) by (apply rnd_nonneg; [lia|lra]). lra.
Qed.
Lemma f_cross a0 a1 a2 b0 b1 b2 : vcross (Fin a0, Fin a1, Fin a2) (Fin b0, Fin b1, Fin b2)
  = let '(x, y, z) := fcross p a0 a1 a2 b0 b1 b2 in (Fin x, Fin y, Fin z).
Proof. reflexivity. Qed.
Lemma f_clamp x : between (-1) 1 (clamp1 (Fin x)).
Proof.
  unfold clamp1. rewrite f_1, f_m1.
  assert (T : forall a b, ltb (Fin a) (Fin b) = if Rlt_dec a b then true else false) by reflexivity.
  rewrite T. destruct (Rlt_dec 1 x) as [A|A]; rewrite T.
  - destruct (Rlt_dec 1 (-1)); [lra|]. exists 1. split; [reflexivity|lra].
  - destruct (Rlt_dec x (-1)); [exists (-1)|exists x]; (split; [reflexivity|lra]).
Qed.

Lemma fin_I x : finite (Fin x). Proof. now exists x. Qed.
Lemma fin_add a b : finite a -> finite b -> finite (add a b).
Proof. intros [x ->] [y ->]. rewrite f_add. apply fin_I. Qed.
Lemma fin_sub a b : finite a -> finite b -> finite (sub a b).
Proof. intros [x ->] [y ->]. rewrite f_sub. apply fin_I. Qed.
Lemma fin_mul a b : finite a -> finite b -> finite (mul a b).
Proof. intros [x ->] [y ->]. rewrite f_mul. apply fin_I. Qed.
Lemma fin_div a y : finite a -> y <> 0 -> finite (div a (Fin y)).
Proof. intros [x ->] H. rewrite f_div by auto. apply fin_I. Qed.
Lemma fin_lit q : finite (lit q). Proof. apply fin_I. Qed.

(** the angles: an arccos in its domain lies in [0, pi]; [flip] keeps [0, 2 pi] *)
Definition tp : R := rnd (rnd (Q2R 2) * rnd PI).
Lemma f_n2pi : n2pi = Fin tp. Proof. reflexivity. Qed.
Lemma rpi_pos : 0 < rnd PI. Proof. apply rnd_pos; [lia|apply PI_RGT_0]. Qed.
Lemma r2 : rnd (Q2R 2) = 2.
Proof.
  replace (Q2R 2) with (Core.Raux.bpow Core.Zaux.radix2 1) by (unfold Q2R; cbn; lra).
  rewrite rnd_fmt; [cbn; lra|]. apply Core.Generic_fmt.generic_format_bpow. unfold Core.FLX.FLX_exp. lia.
Qed.
Lemma tp_ge : rnd PI <= tp.
Proof.
  unfold tp. rewrite r2. pose proof rpi_pos. rewrite <- (rnd_fmt p (rnd PI)) at 1 by now apply fmt_rnd.
  apply rnd_le; [lia|lra].
Qed.
Lemma flip_range b a : between 0 tp a -> between 0 tp (flip b a).
Proof.
  intros [x [-> Hx]]. unfold flip. destruct b; [|now exists x]. rewrite f_n2pi, f_sub.
  eexists. split; [reflexivity|]. split; [apply rnd_nonneg; [lia|lra]|].
  assert (E : rnd tp = tp) by (now apply rnd_fmt, fmt_rnd). rewrite <- E at 2. apply rnd_le; [lia|lra].
Qed.
Context (HL : acos_ok p L).
Lemma acos_range a : between (-1) 1 a -> between 0 (rnd PI) (narccos a).
Proof. intros [x [-> Hx]]. rewrite f_acos by auto. destruct HL as (_ & _ & R). eexists. split; [reflexivity|now apply R]. Qed.
Lemma acos_range2 a : between (-1) 1 a -> between 0 tp (narccos a).
Proof. intros Ha. destruct (acos_range a Ha) as [x [E Hx]]. exists x. split; [auto|]. pose proof tp_ge. lra. Qed.
Lemma clamp_range a : finite a -> between (-1) 1 (clamp1 a).
Proof. intros [x ->]. apply f_clamp. Qed.

(** the node vector of the rounded angular momentum is exact *)
Lemma f_node hx hy hz : fmt p hx -> fmt p hy ->
  vcross (lit 0, lit 0, lit 1) (Fin hx, Fin hy, Fin hz) = (Fin (- hy), Fin hx, Fin 0).
Proof.
  intros Fx Fy. rewrite f_0, f_1, f_cross. unfold fcross. rewrite !Rmult_0_l, !Rmult_1_l, !rnd_0.
  rewrite (rnd_fmt p hx Fx), (rnd_fmt p hy Fy). unfold Rminus. rewrite Ropp_0, Rplus_0_l, !Rplus_0_r.
  rewrite rnd_0. rewrite (rnd_fmt p hx Fx). now rewrite (rnd_fmt p (- hy)) by (apply fmt_opp; auto).
Qed.
(** one entry over the norm *)
Lemma f_quot a n : Rabs a <= n -> 0 < n -> between (-1) 1 (div (Fin a) (Fin n)).
Proof. intros Ha Hn. rewrite f_div by lra. eexists. split; [reflexivity|now apply quot_le]. Qed.
Lemma em9_pos : 0 < rnd (Q2R 1e-9). Proof. apply rnd_pos; [lia|]. unfold Q2R. cbn. lra. Qed.
Lemma i_lim_pos : exists d, (i_lim : num) = Fin d /\ 0 < d.
Proof.
  eexists. split; [reflexivity|]. apply rnd_pos; [lia|]. apply Rmult_lt_0_compat; [apply rpi_pos|apply em9_pos].
Qed.
Lemma e_lim_pos : exists d, (e_lim : num) = Fin d /\ 0 < d.
Proof. eexists. split; [reflexivity|]. apply em9_pos. Qed.

(** inclined orbits have a node *)
Lemma inclined_node hx hy hz : fmt p hz -> hx <> 0 \/ hy <> 0 \/ hz <> 0 ->
  let o2 := narccos (div (Fin hz) (Fin (fnorm p hx hy hz))) in
  ltb i_lim o2 && ltb o2 (sub npi i_lim) = true -> hx <> 0 \/ hy <> 0.
Proof.
  intros Fz Hh o2 Hi. destruct (Req_EM_T hx 0) as [->|]; [|now left]. destruct (Req_EM_T hy 0) as [->|]; [|now right].
  exfalso. assert (Hz : hz <> 0) by tauto. unfold o2 in Hi. clear o2. rewrite fnorm_z in Hi by auto.
  rewrite f_div in Hi by now apply Rabs_no_R0.
  destruct i_lim_pos as [d [Ed Hd]]. rewrite Ed in Hi. apply andb_prop in Hi as [H1 H2].
  destruct HL as (A1 & A2 & _).
  destruct (Rlt_dec 0 hz) as [P|P].
  - rewrite Rabs_pos_eq in H1 by lra. replace (hz / hz) with 1 in H1 by (field; lra). rewrite rnd_1 in H1 by lia.
    rewrite f_acos, A1 in H1 by lra. cbn in H1. unfold Rltb in H1. destruct Rlt_dec; [lra|easy].
  - rewrite Rabs_left in H2 by lra. replace (hz / - hz) with (- (1)) in H2 by (field; lra).
    rewrite (rnd_fmt p (- (1))) in H2 by (apply fmt_opp, fmt_1; lia).
    replace (- (1)) with (-1) in H2 by lra. rewrite f_acos, A2 in H2 by lra.
    change (npi : num) with (Fin (rnd PI)) in H2. rewrite f_sub in H2. cbn in H2. unfold Rltb in H2.
    destruct Rlt_dec as [K|]; [|easy]. 
    assert (rnd (rnd PI - d) <= rnd PI); [|lra].
    rewrite <- (rnd_fmt p (rnd PI)) at 2 by now apply fmt_rnd. apply rnd_le; [lia|lra].
Qed.
Lemma fcross_0 a0 a1 a2 b0 b1 b2 x y z : fcross p a0 a1 a2 b0 b1 b2 = (x, y, z) ->
  x <> 0 \/ y <> 0 \/ z <> 0 -> a0 <> 0 \/ a1 <> 0 \/ a2 <> 0.
Proof.
  intros E H. destruct (Req_EM_T a0 0) as [->|]; [|now left]. destruct (Req_EM_T a1 0) as [->|]; [|right; now left].
  destruct (Req_EM_T a2 0) as [->|]; [|right; now right]. exfalso.
  unfold fcross in E. rewrite !Rmult_0_l, !rnd_0, Rminus_0_r, !rnd_0 in E. injection E as <- <- <-. tauto.
Qed.
Lemma fcross_fmt a0 a1 a2 b0 b1 b2 x y z : fcross p a0 a1 a2 b0 b1 b2 = (x, y, z) -> fmt p x /\ fmt p y /\ fmt p z.
Proof. intros E. injection E as <- <- <-. repeat split; now apply fmt_rnd. Qed.

Ltac fins := repeat first [apply fin_I | apply fin_add | apply fin_sub | apply fin_mul | apply fin_lit
                          | apply fin_div; [|lra]].

Lemma col_ok x y z vx vy vz mu hx hy hz : mu <> 0 ->
  fcross p x y z vx vy vz = (hx, hy, hz) -> hx <> 0 \/ hy <> 0 \/ hz <> 0 ->
  let o := c2k_col false (mk6 (Fin x) (Fin y) (Fin z) (Fin vx) (Fin vy) (Fin vz)) (Fin mu) in
  s0 o <> NaN /\ finite (s1 o) /\ between 0 (rnd PI) (s2 o)
  /\ between 0 tp (s3 o) /\ between 0 tp (s4 o) /\ between 0 tp (s5 o).
Proof.
  intros Hmu Ec Hh. destruct (fcross_fmt _ _ _ _ _ _ _ _ _ Ec) as (Fx & Fy & Fz).
  pose proof (fcross_0 _ _ _ _ _ _ _ _ _ Ec Hh) as Hr.
  unfold c2k_col. cbn [s0 s1 s2 s3 s4 s5]. rewrite !f_norm, f_cross, Ec, f_node by auto. rewrite !f_norm.
  set (rn := fnorm p x y z). set (vn := fnorm p vx vy vz). set (hn := fnorm p hx hy hz).
  assert (Hrn : 0 < rn) by now apply fnorm_pos. assert (Hhn : 0 < hn) by now apply fnorm_pos.
  set (vr := vsum (vmul (vdivs _ _) (Fin vx, Fin vy, Fin vz))).
  assert (Hvr : finite vr) by (unfold vr, vsum, vmul, vdivs; cbn [c0 c1 c2 fst snd]; fins).
  set (e := ecc_el _ _ _ _ _ _).
  assert (He : exists e0 e1 e2, e = (Fin e0, Fin e1, Fin e2)).
  { assert (Q : finite (c0 e) /\ finite (c1 e) /\ finite (c2 e)).
    { unfold e, ecc_el, vscale, vsub, sq. cbn [c0 c1 c2 fst snd]. repeat split; fins; auto. }
    destruct e as [[q0 q1] q2]. destruct Q as ([? Q0] & [? Q1] & [? Q2]). cbn [c0 c1 c2 fst snd] in *. subst. eauto. }
  destruct He as (e0 & e1 & e2 & ->). rewrite f_norm. set (en := fnorm p e0 e1 e2).
  cbn [c0 c1 c2 fst snd]. set (o2 := narccos (div (Fin hz) (Fin hn))).
  destruct (fnorm_ge p Hp hx hy hz Fx Fy Fz) as (_ & _ & Gz).
  assert (H2 : between 0 (rnd PI) o2) by (apply acos_range, f_quot; auto).
  assert (Hig : ltb i_lim o2 && ltb o2 (sub npi i_lim) = true -> hx <> 0 \/ hy <> 0).
  { apply inclined_node; auto. }
  set (ig := ltb i_lim o2 && ltb o2 (sub npi i_lim)) in *. clearbody ig.
  assert (Heg : ltb e_lim (Fin en) = true -> en <> 0).
  { destruct e_lim_pos as [d [-> Hd]]. cbn. unfold Rltb. destruct Rlt_dec; [lra|easy]. }
  set (eg := ltb e_lim (Fin en)) in *. clearbody eg.
  set (nn := fnorm p (- hy) hx 0).
  assert (Hn : ig = true -> 0 < nn /\ Rabs (- hy) <= nn).
  { intros I. split.
    - apply fnorm_pos; [lia|]. destruct (Hig I); [right; now left|left; lra].
    - apply fnorm_ge; auto; [now apply fmt_opp|now apply fmt_0]. }
  assert (Z : between 0 tp (lit 0)).
  { rewrite f_0. exists 0. split; [auto|]. pose proof tp_ge. pose proof rpi_pos. lra. }
  split.
  { set (eps := sub _ _). assert (Heps : finite eps) by (unfold eps, sq; fins).
    destruct Heps as [w ->]. rewrite (f_lit 2), r2, f_mul. clear - Hmu.
    assert (K : div (opp (Fin mu)) (Fin (rnd (2 * w))) <> NaN).
    { cbn. destruct Req_EM_T; [|cbn; discriminate]. unfold num_sign. destruct Rlt_dec; [discriminate|].
      destruct Rlt_dec; [discriminate|lra]. }
    destruct leb; [|exact K]. intros E. apply K. revert E. cbn. destruct rnum; easy. }
  split; [apply fin_I|]. split; [exact H2|]. split; [|split].
  - destruct eg; [|exact Z]. specialize (Heg eq_refl).
    destruct ig.
    + destruct (Hn eq_refl) as [Hn1 _]. apply flip_range, acos_range2, clamp_range.
      rewrite f_mul. unfold vsum, vmul. cbn [c0 c1 c2 fst snd]. apply fin_div; [fins|].
      apply rnd_neq; [lia|]. apply Rmult_integral_contrapositive_currified; lra.
    + apply flip_range, flip_range, acos_range2, clamp_range. apply fin_div; [fins|lra].
  - destruct ig; [|exact Z]. destruct (Hn eq_refl) as [Hn1 Hn2].
    apply flip_range, acos_range2, f_quot; auto.
  - destruct eg; [specialize (Heg eq_refl)|].
    + apply flip_range, acos_range2, clamp_range. rewrite f_mul. unfold vsum, vmul. cbn [c0 c1 c2 fst snd].
      apply fin_div; [fins|]. apply rnd_neq; [lia|]. apply Rmult_integral_contrapositive_currified; lra.
    + destruct ig.
      * destruct (Hn eq_refl) as [Hn1 _]. apply flip_range, acos_range2, clamp_range.
        unfold vsum, vmul, vdivs. cbn [c0 c1 c2 fst snd]. fins.
      * apply flip_range, flip_range, acos_range2, clamp_range. fins.
Qed.
End Float.

(** ** C62: the quotient of a component by the computed norm *)
Theorem C62_domain : forall p, (1 < p)%Z -> forall L x y z, fmt p x -> fmt p y -> fmt p z ->
  (x, y, z) <> (0, 0, 0) -> forall c, In c [x; y; z] ->
  exists q, @div num (NP_rd (rnd p) L) (Fin c) (@vnorm num (NP_rd (rnd p) L) (Fin x, Fin y, Fin z)) = Fin q
            /\ -1 <= q <= 1.
Proof.
  intros p Hp L x y z Fx Fy Fz H c Hc. change (NP_rd (rnd p) L) with (NPf p L). rewrite f_norm by auto.
  destruct (fnorm_ge p Hp x y z Fx Fy Fz) as (Gx & Gy & Gz).
  apply f_quot; auto.
  - destruct Hc as [<-|[<-|[<-|[]]]]; assumption.
  - apply fnorm_pos; auto. destruct (Req_EM_T x 0) as [->|]; [|now left]. destruct (Req_EM_T y 0) as [->|]; [|right; now left].
    right; right. intros ->. now apply H.
Qed.

(** a finite column whose computed angular momentum does not vanish *)
Definition good_col (p : Z) (c : six num) (m : num) : Prop :=
  exists x y z vx vy vz mu, c = mk6 (Fin x) (Fin y) (Fin z) (Fin vx) (Fin vy) (Fin vz) /\ m = Fin mu
  /\ mu <> 0 /\ fcross p x y z vx vy vz <> (0, 0, 0).
(** no NaN; finite eccentricity and angles; in radians the documented ranges, with the machine's pi *)
Definition sound_col (p : Z) (deg : bool) (o : six num) : Prop :=
  s0 o <> NaN /\ finite (s1 o)
  /\ if deg then finite (s2 o) /\ finite (s3 o) /\ finite (s4 o) /\ finite (s5 o)
     else between 0 (rnd p PI) (s2 o)
          /\ forall a, In a [s3 o; s4 o; s5 o] -> between 0 (rnd p (rnd p 2 * rnd p PI)) a.

Lemma c2k_deg {F} `{NP F} (c : six F) m : c2k_col true c m =
  (fun o => mk6 (s0 o) (s1 o) (degrees (s2 o)) (degrees (s3 o)) (degrees (s4 o)) (degrees (s5 o))) (c2k_col false c m).
Proof. reflexivity. Qed.
Lemma col_sound p L c m deg : (1 < p)%Z -> acos_ok p L -> good_col p c m ->
  sound_col p deg (@c2k_col num (NP_rd (rnd p) L) deg c m).
Proof.
  change (NP_rd (rnd p) L) with (NPf p L).
  intros Hp HL (x & y & z & vx & vy & vz & mu & -> & -> & Hmu & Hc).
  destruct (fcross p x y z vx vy vz) as [[hx hy] hz] eqn:Ec.
  assert (Hh : hx <> 0 \/ hy <> 0 \/ hz <> 0).
  { destruct (Req_EM_T hx 0) as [->|]; [|now left]. destruct (Req_EM_T hy 0) as [->|]; [|right; now left].
    right; right. intros ->. now apply Hc. }
  destruct (col_ok p Hp L HL _ _ _ _ _ _ _ _ _ _ Hmu Ec Hh) as (A0 & A1 & A2 & A3 & A4 & A5).
  assert (T : tp p = rnd p (rnd p 2 * rnd p PI)).
  { unfold tp. do 3 f_equal. unfold Q2R. cbn. lra. }
  rewrite T in *. clear T. destruct deg; [rewrite c2k_deg|]; revert A0 A1 A2 A3 A4 A5; generalize (c2k_col (F := num) (H := NPf p L) false
    (mk6 (Fin x) (Fin y) (Fin z) (Fin vx) (Fin vy) (Fin vz)) (Fin mu)); intros o A0 A1 A2 A3 A4 A5.
  - assert (D : forall a lo hi, between lo hi a -> finite (@degrees num (NPf p L) a)).
    { intros a lo hi [w [-> _]]. unfold degrees. apply fin_mul; [apply fin_I|]. apply fin_div; [apply fin_lit|].
      pose proof (rpi_pos p Hp). lra. }
    split; [exact A0|]. split; [exact A1|].
    split; [exact (D _ _ _ A2)|]. split; [exact (D _ _ _ A3)|]. split; [exact (D _ _ _ A4)|exact (D _ _ _ A5)].
  - split; [exact A0|]. split; [exact A1|]. split; [exact A2|]. intros a [<-|[<-|[<-|[]]]]; assumption.
Qed.
Theorem C62_elements : forall p, (1 < p)%Z -> forall L, acos_ok p L -> forall g cols mus deg,
  Forall2 (good_col p) cols mus ->
  exists outs, snd (@cart_to_kep num (NP_rd (rnd p) L) g (KMat cols) (MuV mus) deg) = Ok (KMat outs)
  /\ length outs = length cols /\ Forall (sound_col p deg) outs.
Proof.
  intros p Hp L HL g cols mus deg H.
  assert (Len : length cols = length mus) by (clear - H; induction H; cbn; congruence).
  exists (map2 (@c2k_col num (NP_rd (rnd p) L) deg) cols mus).
  unfold cart_to_kep, mu_bcast. rewrite <- Len, Nat.eqb_refl, cart_to_kep_cols_map by exact Len.
  split; [reflexivity|]. clear Len. induction H as [|c m cs ms Hc _ IH]; [split; [reflexivity|constructor]|].
  destruct IH as [I1 I2]. cbn [map2 length]. split; [now rewrite I1|]. constructor; [now apply col_sound|exact I2].
Qed.
(** one state, as a vector of six elements *)
Theorem C62_vector : forall p, (1 < p)%Z -> forall L, acos_ok p L -> forall g c mu deg, good_col p c mu ->
  exists o, snd (@cart_to_kep num (NP_rd (rnd p) L) g (KVec c) (MuS mu) deg) = Ok (KVec o) /\ sound_col p deg o.
Proof.
  intros p Hp L HL g c mu deg H. exists (@c2k_col num (NP_rd (rnd p) L) deg c mu).
  unfold cart_to_kep, mu_bcast. cbn [repeat]. rewrite cart_to_kep_cols_map by reflexivity.
  split; [reflexivity|now apply col_sound].
Qed.

(** ** What the hypotheses exclude *)
(** The computed angular momentum can vanish although the exact one does not: then the inclination
    is NaN.  The witness is a pair of p-digit vectors (1+d,1,0), (1,1-d,0), d the distance of 1 to
    its successor, whose exact cross product is (0,0,-d^2). *)
Theorem C62_cancellation_refuted : forall p, (3 < p)%Z -> exists x y vx vy,
  fmt p x /\ fmt p y /\ fmt p vx /\ fmt p vy /\ x * vy - y * vx <> 0
  /\ forall L g mu deg, mu <> 0 -> exists o,
       snd (@cart_to_kep num (NP_rd (rnd p) L) g
              (KVec (mk6 (Fin x) (Fin y) (Fin 0) (Fin vx) (Fin vy) (Fin 0))) (MuS (Fin mu)) deg) = Ok (KVec o)
       /\ s2 o = NaN.
Proof.
  intros p Hp. set (d := Core.Raux.bpow Core.Zaux.radix2 (1 - p)).
  assert (Hd : 0 < d) by apply Core.Raux.bpow_gt_0.
  assert (Hd8 : d <= / 8).
  { unfold d. change (/ 8) with (Core.Raux.bpow Core.Zaux.radix2 (-3)). apply Core.Raux.bpow_le. lia. }
  assert (Hp1 : (1 < p)%Z) by lia. pose proof (fmt_1 p Hp1) as F1.
  exists (1 + d), 1, 1, (1 - d).
  assert (Fs : fmt p (1 + d)) by now apply fmt_succ1.
  assert (Fp : fmt p (1 - d)) by now apply fmt_pred1.
  split; [exact Fs|]. split; [exact F1|]. split; [exact F1|]. split; [exact Fp|]. split; [nra|].
  intros L g mu deg Hmu.
  assert (E : rnd p ((1 + d) * (1 - d)) = 1).
  { replace ((1 + d) * (1 - d)) with (1 - d * d) by ring. apply rnd_near1; auto. fold d. nra. }
  exists (@c2k_col num (NP_rd (rnd p) L) deg (mk6 (Fin (1 + d)) (Fin 1) (Fin 0) (Fin 1) (Fin (1 - d)) (Fin 0)) (Fin mu)).
  unfold cart_to_kep, mu_bcast. cbn [repeat]. rewrite cart_to_kep_cols_map by reflexivity.
  split; [reflexivity|].
  assert (C : @vcross num (NPf p L) (Fin (1 + d), Fin 1, Fin 0) (Fin 1, Fin (1 - d), Fin 0) = (Fin 0, Fin 0, Fin 0)).
  { rewrite f_cross. unfold fcross. rewrite E, !Rmult_0_l, !Rmult_0_r, Rmult_1_l, !rnd_0, rnd_1 by auto.
    rewrite Rminus_0_r, Rminus_diag_eq, rnd_0 by reflexivity. reflexivity. }
  assert (N : @narccos num (NPf p L) (@div num (NPf p L) (Fin 0) (Fin 0)) = NaN).
  { assert (D : num_div (Fin 0) (Fin 0) = NaN).
    { unfold num_div, num_sign. destruct (Req_EM_T 0 0); [|lra]. destruct (Rlt_dec 0 0); [lra|reflexivity]. }
    change (lib1 (rnd p) (l_acos L) num_acos (rnum (rnd p) (num_div (Fin 0) (Fin 0))) = NaN). rewrite D. reflexivity. }
  assert (Z : fnorm p 0 0 0 = 0) by (rewrite fnorm_z, Rabs_R0; auto using fmt_0).
  change (NP_rd (rnd p) L) with (NPf p L).
  assert (I : s2 (@c2k_col num (NPf p L) false (mk6 (Fin (1 + d)) (Fin 1) (Fin 0) (Fin 1) (Fin (1 - d)) (Fin 0)) (Fin mu)) = NaN).
  { unfold c2k_col. cbn [s0 s1 s2 s3 s4 s5]. rewrite C. cbn [c2 snd]. rewrite f_norm, Z by auto. exact N. }
  destruct deg; [|exact I]. rewrite c2k_deg. cbn [s2]. rewrite I. reflexivity.
Qed.
(** With the exponents of binary64 a small angular momentum squares to zero. *)
Definition rnd64 : R -> R := Core.Generic_fmt.round Core.Zaux.radix2 (Core.FLT.FLT_exp (-1074) 53) Core.Round_NE.ZnearestE.
Theorem C62_underflow_refuted : exists x vy, 0 < x * vy
  /\ rnd64 x = x /\ rnd64 vy = vy /\ rnd64 (x * vy) = x * vy
  /\ forall L g mu deg, mu <> 0 -> exists o,
       snd (@cart_to_kep num (NP_rd rnd64 L) g
              (KVec (mk6 (Fin x) (Fin 0) (Fin 0) (Fin 0) (Fin vy) (Fin 0))) (MuS (Fin mu)) deg) = Ok (KVec o)
       /\ s2 o = NaN.
Proof.
  set (b := Core.Raux.bpow Core.Zaux.radix2). exists (b (-300)%Z), (b (-300)%Z).
  assert (Pb : forall e, 0 < b e) by (intros; apply Core.Raux.bpow_gt_0).
  assert (Fb : forall e, (-1000 < e < 1000)%Z -> rnd64 (b e) = b e).
  { intros e He. unfold rnd64. apply Core.Generic_fmt.round_generic; [apply Core.Generic_fmt.valid_rnd_N|].
    apply Core.Generic_fmt.generic_format_bpow. unfold Core.FLT.FLT_exp. lia. }
  assert (Z0 : rnd64 0 = 0) by (apply Core.Generic_fmt.round_0, Core.Generic_fmt.valid_rnd_N).
  assert (E : b (-300)%Z * b (-300)%Z = b (-600)%Z) by (unfold b; now rewrite <- Core.Raux.bpow_plus).
  assert (U : rnd64 (b (-600)%Z * b (-600)%Z) = 0).
  { unfold b. rewrite <- Core.Raux.bpow_plus. change (-600 + -600)%Z with (-1200)%Z. unfold rnd64.
    apply Core.Generic_fmt.round_N_small_pos with (ex := (-1199)%Z).
    - split; [apply Core.Raux.bpow_le; lia|apply Core.Raux.bpow_lt; lia].
    - unfold Core.FLT.FLT_exp. lia. }
  rewrite E. split; [apply Pb|]. do 2 (split; [apply Fb; lia|]). split; [apply Fb; lia|].
  intros L g mu deg Hmu.
  eexists (@c2k_col num (NP_rd rnd64 L) deg (mk6 (Fin (b (-300)%Z)) (Fin 0) (Fin 0) (Fin 0) (Fin (b (-300)%Z)) (Fin 0)) (Fin mu)).
  unfold cart_to_kep, mu_bcast. cbn [repeat]. rewrite cart_to_kep_cols_map by reflexivity.
  split; [reflexivity|].
  assert (C : @vcross num (NP_rd rnd64 L) (Fin (b (-300)%Z), Fin 0, Fin 0) (Fin 0, Fin (b (-300)%Z), Fin 0)
              = (Fin 0, Fin 0, Fin (b (-600)%Z))).
  { change ((Fin (rnd64 (rnd64 (0 * 0) - rnd64 (0 * b (-300)%Z))), Fin (rnd64 (rnd64 (0 * 0) - rnd64 (b (-300)%Z * 0))),
             Fin (rnd64 (rnd64 (b (-300)%Z * b (-300)%Z) - rnd64 (0 * 0)))) = (Fin 0, Fin 0, Fin (b (-600)%Z))).
    rewrite !Rmult_0_l, !Rmult_0_r, !Z0, !Rminus_0_r, E, !Z0, !Fb by lia. reflexivity. }
  assert (N : @vnorm num (NP_rd rnd64 L) (Fin 0, Fin 0, Fin (b (-600)%Z)) = Fin 0).
  { change (rnum rnd64 (num_sqrt (Fin (rnd64 (rnd64 (rnd64 (0 * 0) + rnd64 (0 * 0)) + rnd64 (b (-600)%Z * b (-600)%Z))))) = Fin 0).
    rewrite U, Rmult_0_l, !Z0, !Rplus_0_r, !Z0. unfold num_sqrt. destruct (Rlt_dec 0 0); [lra|].
    unfold rnum. now rewrite sqrt_0, Z0. }
  assert (D : num_div (Fin (b (-600)%Z)) (Fin 0) = PInf).
  { unfold num_div, num_sign. destruct (Req_EM_T 0 0); [|lra]. pose proof (Pb (-600)%Z).
    destruct (Rlt_dec 0 (b (-600)%Z)); [reflexivity|lra]. }
  assert (I : s2 (@c2k_col num (NP_rd rnd64 L) false
      (mk6 (Fin (b (-300)%Z)) (Fin 0) (Fin 0) (Fin 0) (Fin (b (-300)%Z)) (Fin 0)) (Fin mu)) = NaN).
  { unfold c2k_col. cbn [s0 s1 s2 s3 s4 s5]. rewrite C, N. cbn [c2 snd].
    change (lib1 rnd64 (l_acos L) num_acos (rnum rnd64 (num_div (Fin (b (-600)%Z)) (Fin 0))) = NaN).
    rewrite D. reflexivity. }
  destruct deg; [|exact I]. rewrite c2k_deg. cbn [s2]. rewrite I. reflexivity.
Qed.

(** ** Concrete cases *)
Definition libm0 : libm := {| l_cbrt := Rcbrt; l_log := ln; l_sin := sin; l_cos := cos; l_tan := tan; l_atan := atan;
  l_acos := acos; l_sinh := sinh; l_cosh := cosh; l_tanh := tanh; l_atanh := Ratanh; l_atan2 := Ratan2; l_mod := Rmod |}.
Lemma libm0_ok p : (1 < p)%Z -> acos_ok p libm0.
Proof.
  intros Hp. unfold acos_ok, libm0. cbn [l_acos]. split; [|split].
  - rewrite acos_1. apply rnd_0.
  - replace (-1) with (- (1)) by lra. now rewrite acos_opp, acos_1, Rminus_0_r.
  - intros x _. pose proof (acos_bound x). split; [apply rnd_nonneg|apply rnd_le]; lia || lra.
Qed.
Example C62_domain_example : exists q,
  @div num (NP_rd (rnd 53) libm0) (Fin (-5)) (@vnorm num (NP_rd (rnd 53) libm0) (Fin 3, Fin 1, Fin (-5))) = Fin q
  /\ -1 <= q <= 1.
Proof.
  assert (F : forall n, (Z.abs n < 100)%Z -> fmt 53 (IZR n)) by (intros n Hn; apply fmt_IZR; lia).
  apply (C62_domain 53 ltac:(lia) libm0 3 1 (-5)); try (apply F; lia).
  - intros E. injection E as E _ _. lra.
  - cbn. auto.
Qed.
(** an inclined orbit around the Earth (km, km/s), binary64 digits *)
Example C62_elements_example : good_col 53 (mk6 (Fin 7000) (Fin 0) (Fin 100) (Fin 0) (Fin 7) (Fin 1)) (Fin 398600)
  /\ acos_ok 53 libm0.
Proof.
  split; [|now apply libm0_ok]. do 7 eexists. split; [reflexivity|]. split; [reflexivity|]. split; [lra|].
  unfold fcross. intros E. injection E as E _ _.
  replace (100 * 7) with 700 in E by lra. rewrite Rmult_0_l, rnd_0 in E.
  rewrite (rnd_fmt 53 700) in E by (apply fmt_IZR; lia). replace (0 - 700) with (-700) in E by lra.
  rewrite (rnd_fmt 53 (-700)) in E by (apply fmt_IZR; lia). lra.
Qed.
