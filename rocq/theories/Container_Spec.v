(** Specification vocabulary for element containers and sequence views (independent of the model's loops). *)
From Coq Require Import ZArith List Bool.
From Verif Require Import Outcome Container_Model.
Import ListNotations.
Local Open Scope Z_scope.

(** The elements alive after a history of calls, oldest first, each with the serial number that the call that created
    it returned. [outs] are the outputs of the calls. *)
Fixpoint live_from {A : Type} (live : list (Z * A)) (ops : list (container_op A)) (outs : list Z) : list (Z * A) :=
  match ops, outs with
  | Emplace e :: ops', sn :: outs' => live_from (live ++ [(sn, e)]) ops' outs'
  | Purge p :: ops', _ :: outs' => live_from (filter (fun x => negb (p (snd x))) live) ops' outs'
  | _, _ => live
  end.
Definition live {A : Type} (ops : list (container_op A)) (outs : list Z) : list (Z * A) := live_from [] ops outs.

(** All serial numbers ever returned by the [Emplace] calls of a history. *)
Fixpoint issued {A : Type} (ops : list (container_op A)) (outs : list Z) : list Z :=
  match ops, outs with
  | Emplace _ :: ops', sn :: outs' => sn :: issued ops' outs'
  | Purge _ :: ops', _ :: outs' => issued ops' outs'
  | _, _ => []
  end.

(** The element a user should get for a serial number: the live one that was given this number. *)
Fixpoint element_numbered {A : Type} (sn : Z) (l : list (Z * A)) : option A :=
  match l with
  | [] => None
  | (sn', e) :: l' => if sn' =? sn then Some e else element_numbered sn l'
  end.

(** A sequence shows exactly the list [l]: right size, the [i]th entry at every index [i < size]. *)
Definition shows {A : Type} (s : sequence A) (l : list A) : Prop :=
  seq_size s = Z.of_nat (length l) /\
  forall i : nat, forall x : A, nth_error l i = Some x -> seq_get s (Z.of_nat i) = Ok x.

(** What a stateful predicate keeps, evaluated exactly once per entry, in order. *)
Fixpoint kept {A S : Type} (condition : S -> A -> bool * S) (l : list A) (st : S) : list A * S :=
  match l with
  | [] => ([], st)
  | x :: l' =>
      let (c, st1) := condition st x in
      let (r, st2) := kept condition l' st1 in
      (if c then r else x :: r, st2)
  end.
