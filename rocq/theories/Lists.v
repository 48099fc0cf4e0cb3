(** * Normal forms for element-wise and masked array code *)
From Coq Require Import List Bool Arith Lia.
From Verif Require Import NP.
Import ListNotations.

Section NF.
Context {X : Type}.
Implicit Types L : list X.

Lemma map2_map {A B C} (f : A -> B -> C) (a : X -> A) (b : X -> B) L :
  map2 f (map a L) (map b L) = map (fun x => f (a x) (b x)) L.
Proof. induction L; cbn; congruence. Qed.
Lemma map3_map {A B C D} (f : A -> B -> C -> D) a b c L :
  map3 f (map a L) (map b L) (map c L) = map (fun x : X => f (a x) (b x) (c x)) L.
Proof. induction L; cbn; congruence. Qed.
Lemma map4_map {A B C D E} (f : A -> B -> C -> D -> E) a b c d L :
  map4 f (map a L) (map b L) (map c L) (map d L) = map (fun x : X => f (a x) (b x) (c x) (d x)) L.
Proof. induction L; cbn; congruence. Qed.
Lemma map6l_map {A B C D E G H} (f : A -> B -> C -> D -> E -> G -> H) a b c d e g L :
  map6l f (map a L) (map b L) (map c L) (map d L) (map e L) (map g L)
  = map (fun x : X => f (a x) (b x) (c x) (d x) (e x) (g x)) L.
Proof. unfold map6l. now rewrite map4_map, !map2_map. Qed.
Lemma mand_map a b L : mand (map a L) (map b L) = map (fun x => a x && b x) L.
Proof. apply map2_map. Qed.
Lemma mnot_map a L : mnot (map a L) = map (fun x : X => negb (a x)) L.
Proof. unfold mnot. now rewrite map_map. Qed.
Lemma mget_map {A} (b : X -> bool) (a : X -> A) L :
  mget (map b L) (map a L) = map a (filter b L).
Proof. induction L as [|x L IH]; cbn; [easy|]. destruct (b x); cbn; congruence. Qed.
Lemma mset_map {A} (b : X -> bool) (a o : X -> A) L :
  mset (map b L) (map a (filter b L)) (map o L) = map (fun x => if b x then a x else o x) L.
Proof. induction L as [|x L IH]; cbn; [easy|]. destruct (b x); cbn; congruence. Qed.
Lemma mset_s_map {A} (b : X -> bool) (v : A) (o : X -> A) L :
  mset_s (map b L) v (map o L) = map (fun x => if b x then v else o x) L.
Proof. induction L as [|x L IH]; cbn; congruence. Qed.
Lemma zip6_map {A} (a b c d e f : X -> A) L :
  zip6 (map a L) (map b L) (map c L) (map d L) (map e L) (map f L)
  = map (fun x => mk6 (a x) (b x) (c x) (d x) (e x) (f x)) L.
Proof. induction L; cbn; congruence. Qed.
Lemma if_map {B} (c : bool) (f h : X -> B) L :
  (if c then map f L else map h L) = map (fun x => if c then f x else h x) L.
Proof. destruct c; reflexivity. Qed.
End NF.

(** ** Tagged columns: position, column, second component *)
Definition tag {A B} (l : list A) (m : list B) : list (nat * (A * B)) :=
  combine (seq 0 (length l)) (combine l m).

Lemma map_fst_combine {A B} (l : list A) (m : list B) :
  length l = length m -> map fst (combine l m) = l.
Proof. revert m; induction l; destruct m; cbn; intros; try easy. f_equal; auto. Qed.
Lemma map_snd_combine {A B} (l : list A) (m : list B) :
  length l = length m -> map snd (combine l m) = m.
Proof. revert m; induction l; destruct m; cbn; intros; try easy. f_equal; auto. Qed.

Section Tag.
Context {A B : Type} (l : list A) (m : list B) (Hlen : length l = length m).
Lemma tag_idx : map fst (tag l m) = seq 0 (length l).
Proof.
  apply map_fst_combine. rewrite seq_length, combine_length, <- Hlen. lia.
Qed.
Lemma tag_col : map (fun t => fst (snd t)) (tag l m) = l.
Proof.
  rewrite <- (map_map snd fst). unfold tag. rewrite map_snd_combine, map_fst_combine; auto.
  rewrite seq_length, combine_length, <- Hlen; lia.
Qed.
Lemma tag_snd : map (fun t => snd (snd t)) (tag l m) = m.
Proof.
  rewrite <- (map_map snd snd). unfold tag. rewrite map_snd_combine, map_snd_combine; auto.
  rewrite seq_length, combine_length, <- Hlen; lia.
Qed.
Lemma tag_empty {C} (g : nat -> C) : np_empty g (length l) = map (fun t => g (fst t)) (tag l m).
Proof. unfold np_empty. now rewrite <- tag_idx, map_map. Qed.
Lemma tag_map2 {C} (f : A -> B -> C) :
  map (fun t => f (fst (snd t)) (snd (snd t))) (tag l m) = map2 f l m.
Proof. now rewrite <- map2_map, tag_col, tag_snd. Qed.
End Tag.

Lemma map2_length {A B C} (f : A -> B -> C) l m : length (map2 f l m) = Nat.min (length l) (length m).
Proof. revert m; induction l; destruct m; cbn; auto. Qed.
Lemma map2_repeat {A B C} (f : A -> B -> C) l y n :
  n = length l -> map2 f l (repeat y n) = map (fun x => f x y) l.
Proof. intros ->. induction l; cbn; congruence. Qed.
Lemma map2_ext_in {A B C} (f g : A -> B -> C) l m :
  (forall x y, In x l -> In y m -> f x y = g x y) -> map2 f l m = map2 g l m.
Proof.
  revert m; induction l as [|x l IH]; destruct m as [|y m]; cbn; intros E; auto.
  rewrite (E x y), (IH m); auto.
Qed.
Lemma map_map2 {A B C D} (h : C -> D) (f : A -> B -> C) l m :
  map h (map2 f l m) = map2 (fun x y => h (f x y)) l m.
Proof. revert m; induction l; destruct m; cbn; auto. f_equal; auto. Qed.
Lemma map2_map_l {A B C A'} (f : A -> B -> C) (h : A' -> A) l m :
  map2 f (map h l) m = map2 (fun x y => f (h x) y) l m.
Proof. revert m; induction l; destruct m; cbn; auto. f_equal; auto. Qed.
Lemma map2_map_r {A B C B'} (f : A -> B -> C) (h : B' -> B) l m :
  map2 f l (map h m) = map2 (fun x y => f x (h y)) l m.
Proof. revert m; induction l; destruct m; cbn; auto. f_equal; auto. Qed.
Lemma nth_error_map2 {A B C} (f : A -> B -> C) l m j :
  nth_error (map2 f l m) j =
  match nth_error l j, nth_error m j with Some x, Some y => Some (f x y) | _, _ => None end.
Proof.
  revert m j; induction l as [|x l IH]; destruct m as [|y m]; destruct j; cbn; auto.
  - destruct (nth_error l j); auto.
Qed.
