(** /repo/include/Mutual_ptr.hpp on a heap of pointers. *)
From Coq Require Import List Arith Bool.
From Verif Require Import Outcome.
Import ListNotations.

(** One [Mutual_ptr<T, U>] object (lines 19-24). [tt], [uu] stand for the types T and U, which have no run-time effect; [mine] is the
    address of the data ([None]: null), [partner] the address of the other [Mutual_ptr]. *)
Record cell := mk_cell { tt : nat; uu : nat; mine : option nat; partner : option nat }.
(** live objects by address *)
Definition heap := nat -> option cell.

Definition get (h : heap) (a : nat) : outcome cell := of_option_ub (h a).
(** assignment to a member of the object at [a], which has to be alive *)
Definition set_partner (h : heap) (a : nat) (p : option nat) : outcome heap :=
  let! c := get h a in Ok (fun x => if x =? a then Some (mk_cell (tt c) (uu c) (mine c) p) else h x).
Definition set_mine (h : heap) (a : nat) (m : option nat) : outcome heap :=
  let! c := get h a in Ok (fun x => if x =? a then Some (mk_cell (tt c) (uu c) m (partner c)) else h x).

(** unpair(), lines 64-70 *)
Definition unpair (h : heap) (a : nat) : outcome heap :=
  let! c := get h a in
  match partner c with
  | None => Ok h
  | Some p => let! h := set_partner h p None in set_partner h a None
  end.

(** pair(other), lines 55-61 *)
Definition pair_with (h : heap) (a b : nat) : outcome heap :=
  let! h := unpair h a in
  let! h := unpair h b in
  let! h := set_partner h a (Some b) in
  set_partner h b (Some a).

(** operator=(Mutual_ptr&&), lines 45-51 *)
Definition move_assign (h : heap) (a b : nat) : outcome heap :=
  let! h := unpair h a in
  let! cb := get h b in
  let! h := set_mine h a (mine cb) in
  let! cb := get h b in
  match partner cb with
  | None => Ok h
  | Some p => pair_with h a p
  end.

(** The operations of a program: construction from a data pointer (line 29-32), move construction (41-44), move assignment,
    pairing, unpairing, destruction (33). The first argument is the object that is operated on. *)
Inductive op :=
| Construct (a t u : nat) (data : option nat)
| MoveConstruct (a b : nat)
| MoveAssign (a b : nat)
| Pair (a b : nat)
| Unpair (a : nat)
| Destroy (a : nat).

Definition step (h : heap) (o : op) : outcome heap :=
  match o with
  | Construct a t u data =>
      match data with
      | None => Throw
      | Some _ => Ok (fun x => if x =? a then Some (mk_cell t u data None) else h x)
      end
  | MoveConstruct a b =>
      let! cb := get h b in
      let h := fun x => if x =? a then Some (mk_cell (tt cb) (uu cb) None None) else h x in
      move_assign h a b
  | MoveAssign a b => move_assign h a b
  | Pair a b => pair_with h a b
  | Unpair a => unpair h a
  | Destroy a => let! h := unpair h a in Ok (fun x => if x =? a then None else h x)
  end.

(** operator U*(), line 75: the data of the partner *)
Definition get_data (h : heap) (a : nat) : outcome (option nat) :=
  let! c := get h a in
  match partner c with
  | None => Ok None
  | Some p => let! q := get h p in Ok (mine q)
  end.
