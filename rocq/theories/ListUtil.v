(** List lemmas shared by several areas; models nothing of /repo by itself. [set_nth] is assignment to a vector element. *)
From Coq Require Import List Arith Lia.
Import ListNotations.

Fixpoint set_nth {A : Type} (i : nat) (x : A) (l : list A) : list A :=
  match l, i with
  | [], _ => []
  | _ :: l', O => x :: l'
  | y :: l', S i' => y :: set_nth i' x l'
  end.

Lemma set_nth_length {A} i (x : A) l : length (set_nth i x l) = length l.
Proof. revert i; induction l as [|y l IH]; intros [|i]; cbn; auto. Qed.

Lemma nth_set_nth_eq {A} i (x d : A) l : i < length l -> nth i (set_nth i x l) d = x.
Proof. revert i; induction l as [|y l IH]; intros [|i] H; cbn in *; try lia; auto. apply IH. lia. Qed.

Lemma nth_set_nth_neq {A} i j (x d : A) l : i <> j -> nth j (set_nth i x l) d = nth j l d.
Proof. revert i j; induction l as [|y l IH]; intros [|i] [|j] H; cbn in *; try lia; auto. Qed.

Lemma set_nth_Forall {A} (P : A -> Prop) i x l : P x -> Forall P l -> Forall P (set_nth i x l).
Proof. intros Hx H. revert i. induction H; intros [|i]; cbn; auto. Qed.

Lemma nth_error_set_nth {A} i j (x : A) l : nth_error (set_nth i x l) j = if i =? j then (if i <? length l then Some x else None) else nth_error l j.
Proof.
  revert i j; induction l as [|y l IH]; intros i j; cbn [set_nth length].
  - destruct i, j; cbn; try reflexivity; destruct (i =? j); reflexivity.
  - destruct i, j; cbn [nth_error set_nth Nat.eqb]; try reflexivity. rewrite IH.
    destruct (i =? j); [|reflexivity]. change (S i <? S (length l)) with (i <? length l). reflexivity.
Qed.

Lemma nth_error_ext' {A} (l m : list A) : (forall i, nth_error l i = nth_error m i) -> l = m.
Proof.
  revert m; induction l as [|x l IH]; intros [|y m] H; auto.
  - specialize (H 0). discriminate.
  - specialize (H 0). discriminate.
  - f_equal; [specialize (H 0); now injection H|]. apply IH. intros i. exact (H (S i)).
Qed.

Lemma map_seq_nth {A} (l : list A) d : map (fun i => nth i l d) (seq 0 (length l)) = l.
Proof.
  induction l as [|x l IH]; [reflexivity|]. cbn [length seq map nth]. f_equal.
  rewrite <- seq_shift, map_map. exact IH.
Qed.

Lemma Forall2_length' {A B} (R : A -> B -> Prop) l m : Forall2 R l m -> length l = length m.
Proof. induction 1; cbn; auto. Qed.
