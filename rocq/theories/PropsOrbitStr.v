(** * C72: what print(orb) shows *)
From Coq Require Import Reals Lra String List Bool Arith Lia ZArith QArith.
From Verif Require Import NP KeplerModel ConvModel UnitModel OrbitModel StrModel Lists ConvCols ArraySpec
  NPReal RealBase Spec AnomReal KepReal PropsKep PropsAnomaly PropsAnomalyR PropsSolver PropsCart
  OrbitLists OrbitBase OrbitOps OrbitSetters OrbitInv OrbitSpec NPToyN PropsOrbitWidth OrbitGet
  PropsOrbitDirect PropsOrbitLazy PropsOrbitWrite OrbitReal PropsOrbitType.
Import ListNotations.
Local Open Scope nat_scope.

(** ** Specification *)
Fixpoint lines_of (s : string) : list string :=
  match s with
  | EmptyString => [EmptyString]
  | String c s' => if Ascii.eqb c (Ascii.ascii_of_nat 10) then EmptyString :: lines_of s'
                   else match lines_of s' with [] => [String c EmptyString] | l :: t => String c l :: t end
  end.
Fixpoint one_line (s : string) : Prop :=
  match s with EmptyString => True | String c s' => c <> Ascii.ascii_of_nat 10 /\ one_line s' end.

(** ** Proof *)
Lemma one_line_app a b : one_line a -> one_line b -> one_line (a ++ b).
Proof. induction a as [|x a IH]; cbn; auto. intros [H1 H2] Hb. auto. Qed.
Lemma one_line_ljust w a : one_line a -> one_line (ljust w a).
Proof.
  assert (E : forall w, one_line (ljust w EmptyString)).
  { clear. induction w; cbn; auto. split; [discriminate|auto]. }
  revert a. induction w as [|w IH]; intros [|x a]; cbn; auto.
  - intros _. split; [discriminate|apply E].
  - intros [H1 H2]. auto.
Qed.
Lemma lines_one a : one_line a -> lines_of a = [a].
Proof.
  induction a as [|x a IH]; [reflexivity|]. cbn [lines_of one_line]. intros [H1 H2]. rewrite IH by auto.
  destruct (Ascii.eqb_spec x (Ascii.ascii_of_nat 10)); [contradiction|reflexivity].
Qed.
Lemma lines_app a b : one_line a -> lines_of (a ++ newline ++ b) = a :: lines_of b.
Proof.
  induction a as [|x a IH]; [reflexivity|]. cbn [lines_of one_line append]. intros [H1 H2]. rewrite IH by auto.
  destruct (Ascii.eqb_spec x (Ascii.ascii_of_nat 10)); [contradiction|reflexivity].
Qed.
Section Str.
Context {F : Type} `{NP F}.
Notation orb := (orb F).
Variables (fe : F -> string) (dec : nat -> string).
Hypothesis fe_line : forall x, one_line (fe x).

Lemma str_line_one (x y : F) a b : one_line a -> one_line b -> one_line (str_line fe x a y b).
Proof.
  intros Ha Hb. unfold str_line. repeat apply one_line_app; auto using one_line_ljust; cbn; repeat split; discriminate.
Qed.
(** What is shown for a single orbit in direct and manual mode: six lines, the i-th with the values that
    reading the i-th Kepler and Cartesian element gives, under their names; for any other number of
    orbits that number. *)
Theorem C72_shown_partial : forall gb (s : orb), lens (OrbitModel.num s) s -> ~ lazy_mode s ->
  (OrbitModel.num s = 1 -> exists k c, snd (get_kepler gb s) = Ok [k] /\ snd (get_cartesian gb s) = Ok [c]
     /\ length (lines_of (str_orbit fe dec s)) = 6
     /\ forall i, i < 6 -> nth_error (lines_of (str_orbit fe dec s)) i = Some
          (ljust 5 (nth i ["a"; "e"; "i"; "omega"; "Omega"; "anom"] "") ++ ": " ++ fe (row_get i k) ++ "   "
           ++ ljust 2 (nth i ["x"; "y"; "z"; "vx"; "vy"; "vz"] "") ++ ": " ++ fe (row_get i c))%string)
  /\ (OrbitModel.num s <> 1 -> str_orbit fe dec s = (dec (OrbitModel.num s) ++ " Orbits")%string).
Proof.
  intros gb s Hs L. assert (L0 : lazy s = false) by (destruct (lazy s) eqn:E; [apply lazy_mode_iff in E; tauto|auto]).
  rewrite (get_kepler_eq gb (OrbitModel.num s)), (get_cartesian_eq gb (OrbitModel.num s)) by auto. rewrite kchk_id, cchk_id by auto. cbn [snd].
  destruct Hs as [_ Lc Lk _ _ _ _]. unfold str_orbit. split; intros Hn.
  - rewrite Hn in Lc, Lk. destruct (okep s) as [|k [|]], (ocart s) as [|c [|]]; try discriminate. exists k, c.
    split; [auto|]. split; [auto|]. unfold six_list, KEPLER_names, CARTESIAN_names. cbn [zip4 String.concat].
    rewrite !lines_app, lines_one by (apply str_line_one; cbn; repeat split; discriminate). split; [reflexivity|].
    intros i Hi. do 6 (destruct i as [|i]; [reflexivity|]). lia.
  - destruct (okep s) as [|k [|]]; auto. cbn in Lk. congruence.
Qed.
End Str.

Section Reals.
Open Scope R_scope.
(** In lazy mode the stored arrays are shown, fresh or not.  A new object, [orb.kepler = ktp 0]: reading
    [cartesian] gives a state, str shows NaN. *)
Theorem C72_lazy_refuted : forall gb (fe : NPReal.num -> string) dec, (forall x, one_line (fe x)) -> exists sa,
  init gb (Fin 1) (cfgr true false) no_kws = Ok (s_new true false)
  /\ set_kepler gb (kvec (ktp 0)) (s_new true false) = (sa, Ok tt)
  /\ snd (get_cartesian gb sa) = Ok [fin6 (peri_state 1 (ktp 0))]
  /\ nth_error (lines_of (str_orbit fe dec sa)) 0 = Some ("a    : " ++ fe (Fin 1) ++ "   x : " ++ fe NaN)%string.
Proof.
  intros gb fe dec Hf.
  pose (sa := aft_kep gb (with_kep (fun _ => [fin6 (ktp 0)]) (s_new true false))).
  assert (Ha : lens 1 sa) by now constructor.
  exists sa. split; [reflexivity|]. split; [reflexivity|]. split.
  - rewrite (get_cartesian_eq gb 1) by auto. cbn [snd]. f_equal.
    assert (C : col sa 0 nan6c (fin6 (ktp 0)) (Fin 0) false true).
    { constructor; try reflexivity. cbn [om sa aft_kep with_kep with_cf with_kf odirect s_new]. rewrite lit_0. reflexivity. }
    destruct (cchk_spec gb 1 sa Ha) as [_ [K1 [_ [_ [_ [_ [_ K]]]]]]].
    destruct (K _ _ _ _ _ _ C) as [c' [k' [cb' [kb' [C' [_ R]]]]]].
    destruct R as [[[Q|Q] _]|[_ [_ [_ R]]]]; [discriminate|rewrite fin6_nan in Q; discriminate|].
    destruct R as [_ R]; [reflexivity|].
    apply (Cc_real sa (ktp 0) 0 1 c') with (nu := 0) in R; try (cbn [ktp s0 s1]; lra).
    + change (odeg sa) with false in R. destruct K1 as [_ Lc _ _ _ _ _]. pose proof (col_c _ _ _ _ _ _ _ C') as Q.
      destruct (ocart (cchk gb sa)) as [|y [|]]; try discriminate. cbn in Q. injection Q as ->. rewrite R. reflexivity.
    + unfold mu_real. cbn. num. f_equal. lra.
    + discriminate.
    + apply cong_refl.
  - unfold str_orbit. cbn [okep ocart sa aft_kep with_kep with_cf with_kf odirect s_new].
    unfold six_list, KEPLER_names, CARTESIAN_names. cbn [zip4 String.concat].
    rewrite lines_app by (apply str_line_one; auto; cbn; repeat split; discriminate). reflexivity.
Qed.
End Reals.

Section Examples.
#[local] Existing Instance NP_toyn.
(** a single orbit in direct mode; numbers shown as "#" *)
Example C72_example : exists s, init gd 1%Z (cfgd "true" 1) (kwd (fresh [6; 1] [9; 0; 2; 3; 4; 5]%Z)) = Ok s
  /\ lens (OrbitModel.num s) s /\ ~ lazy_mode s /\ OrbitModel.num s = 1
  /\ nth_error (lines_of (str_orbit (fun _ => "#"%string) (fun _ => "n"%string) s)) 3 = Some "omega: #   vx: #"%string.
Proof.
  eexists. split; [vm_compute; reflexivity|]. split; [apply toy_lens; vm_compute; reflexivity|].
  split; [intros [_ Q]; discriminate Q|]. split; vm_compute; reflexivity.
Qed.
End Examples.
