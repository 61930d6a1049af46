(** Specification of the HIL namespace, in the terms of doc/hil.dox (section Variables and Assignment). *)
Require Import List ZArith Ascii.
Require Import Verif.Namespace_Model.
Import ListNotations.

(** what a name stands for in one namespace: a typed variable *)
Inductive entry (D : Type) :=
| EInt (v : variable Z nat)
| EDbl (v : variable D nat)
| EStr (v : variable str str_callback).
Arguments EInt {D}. Arguments EDbl {D}. Arguments EStr {D}.

Inductive ty := TInt | TDbl | TStr.
Definition entry_ty {D} (e : entry D) : ty := match e with EInt _ => TInt | EDbl _ => TDbl | EStr _ => TStr end.

(** [holds s n e]: in the namespace [s] itself (not its supers) the name [n] is the variable [e]. *)
Definition holds {D} (s : space D) (n : str) (e : entry D) : Prop :=
  match e with
  | EInt v => ints s n = Some v
  | EDbl v => dbls s n = Some v
  | EStr v => strs s n = Some v
  end.

(** the manual: a name has one type *)
Definition one_type {D} (s : space D) : Prop := forall n e e', holds s n e -> holds s n e' -> entry_ty e = entry_ty e'.

(** every namespace of the hierarchy has the property *)
Inductive hereditarily {D} (P : space D -> Prop) : space D -> Prop :=
| Hered s : P s -> (forall x, In x (supers s) -> hereditarily P x) -> hereditarily P s.

(** [defined n s]: the name is defined in the namespace or, recursively, in some super-namespace. *)
Inductive defined {D} (n : str) : space D -> Prop :=
| DefHere s e : holds s n e -> defined n s
| DefSuper s x : In x (supers s) -> defined n x -> defined n s.

(** [resolves n s e]: the documented search: the namespace itself, otherwise the first super-namespace in which the name is
    defined (recursively). *)
Inductive resolves {D} (n : str) : space D -> entry D -> Prop :=
| ResHere s e : holds s n e -> resolves n s e
| ResSuper s before x after e :
    (forall e', ~ holds s n e') ->
    supers s = before ++ x :: after ->
    (forall y, In y before -> ~ defined n y) ->
    resolves n x e -> resolves n s e.

(** depth of the hierarchy: 0 for a namespace without supers *)
Inductive depth_le {D} : nat -> space D -> Prop :=
| Depth k s : (supers s <> [] -> exists k', k = S k' /\ forall x, In x (supers s) -> depth_le k' x) -> depth_le k s.

(** a value of one of the three types *)
Inductive tvalue (D : Type) := VInt (x : Z) | VDbl (x : D) | VStr (x : str).
Arguments VInt {D}. Arguments VDbl {D}. Arguments VStr {D}.

(** The rule of the manual for `name = value`, given what the name stood for: the new variable, or a refusal. *)
Definition assign_rule {D} (conv : Z -> D) (cur : option (entry D)) (v : tvalue D) : option (entry D) :=
  match cur, v with
  | None, VInt x => Some (EInt (Value x))
  | None, VDbl x => Some (EDbl (Value x))
  | None, VStr x => Some (EStr (Value x))
  | Some (EInt (Value _)), VInt x => Some (EInt (Value x))
  | Some (EDbl (Value _)), VDbl x => Some (EDbl (Value x))
  | Some (EDbl (Value _)), VInt x => Some (EDbl (Value (conv x)))
  | Some (EStr (Value _)), VStr x => Some (EStr (Value x))
  | _, _ => None
  end.

(** the current meaning of a name in one namespace *)
Definition current {D} (s : space D) (n : str) (cur : option (entry D)) : Prop :=
  match cur with Some e => holds s n e | None => forall e, ~ holds s n e end.

(** nothing but the name [n] differs *)
Definition same_but {D} (n : str) (s s' : space D) : Prop :=
  supers s' = supers s /\ forall m e, m <> n -> (holds s' m e <-> holds s m e).

(** `name = value` for a value of any type *)
Definition assign_t {D} (conv : Z -> D) n (v : tvalue D) (s : space D) : option (space D) :=
  match v with
  | VInt x => assign_int conv n x s
  | VDbl x => assign_dbl n x s
  | VStr x => assign_str n x s
  end.

(** What the lookups for the three types have to return if the name stands for the variable [e]: an int is also readable as
    a double, and nothing else is converted. *)
Definition as_int {D} (e : entry D) := match e with EInt v => Some v | _ => None end.
Definition as_dbl {D} (e : entry D) := match e with EInt v => Some (inr v) | EDbl v => Some (inl v) | _ => None end.
Definition as_str {D} (e : entry D) := match e with EStr v => Some v | _ => None end.

Definition found {D} n (s : space D) (r : option (entry D)) : Prop :=
  find_int n s = (match r with Some e => as_int e | None => None end) /\
  find_dbl n s = (match r with Some e => as_dbl e | None => None end) /\
  find_str n s = (match r with Some e => as_str e | None => None end).
