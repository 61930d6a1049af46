(** Model of the HIL namespace, include/Namespace.hpp.

    Simplifications: a [std::string] is a list of characters; the three [std::map]s are total functions into [option];
    the super-namespaces (shared pointers) are represented by their contents, i.e. the acyclic graph of namespaces is
    unfolded into a tree, which is faithful because none of the modelled functions writes to a super-namespace.
    A Heisenberg variable (include/Namespace.hpp:40-55) is represented by the name of its callback; what the callback
    does is modelled in Hil_Model.v. The error texts of the exceptions are not modelled. *)
Require Import List ZArith Bool Ascii String.
Import ListNotations.
Open Scope list_scope.

(** [std::string] *)
Definition str := list ascii.
Definition s_ (s : string) : str := list_ascii_of_string s.

(** [operator==] of [std::string] *)
Fixpoint str_eqb (a b : str) : bool :=
  match a, b with
  | [], [] => true
  | x :: a', y :: b' => Ascii.eqb x y && str_eqb a' b'
  | _, _ => false
  end.

(** include/Namespace.hpp:20-55: a [Variable<T>] is a [Value<T>] or a [Heisenberg<T>]. *)
Inductive variable (T K : Type) : Type :=
| Value (v : T)
| Heisenberg (callback : K).
Arguments Value {T K} v.
Arguments Heisenberg {T K} callback.

(** The callbacks of the Heisenberg variables of type string: [exit] and [throw] of src/Interpreter.cpp:331-338 act on
    the interpreter, all other callbacks ([ask] of src/Interpreter.cpp:326-330 and those installed by other classes)
    are numbered. *)
Inductive str_callback := CbExit | CbThrow | CbHost (k : nat).

(** include/Namespace.hpp:57-61 *)
Inductive space (D : Type) : Type := Space {
  ints : str -> option (variable Z nat);
  dbls : str -> option (variable D nat);
  strs : str -> option (variable str str_callback);
  supers : list (space D)
}.
Arguments Space {D} _ _ _ _.
Arguments ints {D} _ _.
Arguments dbls {D} _ _.
Arguments strs {D} _ _.
Arguments supers {D} _.

(** A newly constructed [Namespace]. *)
Definition empty_space {D} : space D := Space (fun _ => None) (fun _ => None) (fun _ => None) [].

Definition is_some {A} (o : option A) : bool := match o with Some _ => true | None => false end.

(** insertion or replacement in a map *)
Definition put {A} (m : str -> option A) (n : str) (v : A) : str -> option A :=
  fun k => if str_eqb k n then Some v else m k.

(** include/Namespace.hpp:79-82 [exists] *)
Definition exists_ {D} (s : space D) (n : str) : bool := is_some (ints s n) || is_some (dbls s n) || is_some (strs s n).

(** include/Namespace.hpp:84-92 [exists_recursive] *)
Definition exists_recursive {D} (s : space D) (n : str) : bool :=
  if exists_ s n then true
  else match supers s with
       | [] => false
       | l => forallb (fun x => exists_ x n) l
       end.

(** include/Namespace.hpp:94-100 [create]: [None] if the assertion throws. *)
Definition create_int {D} (n : str) (v : variable Z nat) (s : space D) : option (space D) :=
  if exists_ s n then None else Some (Space (put (ints s) n v) (dbls s) (strs s) (supers s)).
Definition create_dbl {D} (n : str) (v : variable D nat) (s : space D) : option (space D) :=
  if exists_ s n then None else Some (Space (ints s) (put (dbls s) n v) (strs s) (supers s)).
Definition create_str {D} (n : str) (v : variable str str_callback) (s : space D) : option (space D) :=
  if exists_ s n then None else Some (Space (ints s) (dbls s) (put (strs s) n v) (supers s)).

(** include/Namespace.hpp:34, 46: [set] of a variable; [None] if it throws. *)
Definition set_var {T K} (v : variable T K) (x : T) : option (variable T K) :=
  match v with
  | Value _ => Some (Value x)
  | Heisenberg _ => None
  end.

Definition set_int {D} (n : str) (v : variable Z nat) (x : Z) (s : space D) : option (space D) :=
  match set_var v x with
  | Some v' => Some (Space (put (ints s) n v') (dbls s) (strs s) (supers s))
  | None => None
  end.
Definition set_dbl {D} (n : str) (v : variable D nat) (x : D) (s : space D) : option (space D) :=
  match set_var v x with
  | Some v' => Some (Space (ints s) (put (dbls s) n v') (strs s) (supers s))
  | None => None
  end.
Definition set_str {D} (n : str) (v : variable str str_callback) (x : str) (s : space D) : option (space D) :=
  match set_var v x with
  | Some v' => Some (Space (ints s) (dbls s) (put (strs s) n v') (supers s))
  | None => None
  end.

(** include/Namespace.hpp:102-112 [assign<T>], for the three types. [conv] is the conversion of [int] to [double]. *)
Definition assign_int {D} (conv : Z -> D) (n : str) (x : Z) (s : space D) : option (space D) :=
  match ints s n with
  | Some v => set_int n v x s
  | None =>
      match dbls s n with
      | Some v => set_dbl n v (conv x) s
      | None => create_int n (Value x) s
      end
  end.
Definition assign_dbl {D} (n : str) (x : D) (s : space D) : option (space D) :=
  match dbls s n with
  | Some v => set_dbl n v x s
  | None => create_dbl n (Value x) s
  end.
Definition assign_str {D} (n : str) (x : str) (s : space D) : option (space D) :=
  match strs s n with
  | Some v => set_str n v x s
  | None => create_str n (Value x) s
  end.

(** include/Namespace.hpp:114-118 [assign_default<T>] *)
Definition assign_default_int {D} (conv : Z -> D) n x (s : space D) :=
  if exists_recursive s n then Some s else assign_int conv n x s.
Definition assign_default_dbl {D} n x (s : space D) :=
  if exists_recursive s n then Some s else assign_dbl n x s.
Definition assign_default_str {D} n x (s : space D) :=
  if exists_recursive s n then Some s else assign_str n x s.

(** include/Namespace.hpp:120-140 [lookup<T>], up to the call of [get()] on the variable found: which variable is read. *)
Fixpoint find_int {D} (n : str) (s : space D) : option (variable Z nat) :=
  match ints s n with
  | Some v => Some v
  | None =>
      if exists_ s n then None
      else (fix go (l : list (space D)) :=
              match l with
              | [] => None
              | x :: l' => if exists_recursive x n then find_int n x else go l'
              end) (supers s)
  end.
Fixpoint find_dbl {D} (n : str) (s : space D) : option (variable D nat + variable Z nat) :=
  match dbls s n with
  | Some v => Some (inl v)
  | None =>
      match ints s n with
      | Some v => Some (inr v)
      | None =>
          if exists_ s n then None
          else (fix go (l : list (space D)) :=
                  match l with
                  | [] => None
                  | x :: l' => if exists_recursive x n then find_dbl n x else go l'
                  end) (supers s)
      end
  end.
Fixpoint find_str {D} (n : str) (s : space D) : option (variable str str_callback) :=
  match strs s n with
  | Some v => Some v
  | None =>
      if exists_ s n then None
      else (fix go (l : list (space D)) :=
              match l with
              | [] => None
              | x :: l' => if exists_recursive x n then find_str n x else go l'
              end) (supers s)
  end.

(** Histories of the operations of a namespace, for the invariants: an operation that throws leaves the namespace as
    it was. *)
Inductive ns_op (D : Type) :=
| CreateInt (n : str) (v : variable Z nat)
| CreateDbl (n : str) (v : variable D nat)
| CreateStr (n : str) (v : variable str str_callback)
| AssignInt (n : str) (x : Z)
| AssignDbl (n : str) (x : D)
| AssignStr (n : str) (x : str)
| DefaultInt (n : str) (x : Z)
| DefaultDbl (n : str) (x : D)
| DefaultStr (n : str) (x : str)
| PushSuper (x : space D).
Arguments CreateInt {D}. Arguments CreateDbl {D}. Arguments CreateStr {D}.
Arguments AssignInt {D}. Arguments AssignDbl {D}. Arguments AssignStr {D}.
Arguments DefaultInt {D}. Arguments DefaultDbl {D}. Arguments DefaultStr {D}. Arguments PushSuper {D}.

(** [None]: the operation throws. [PushSuper] is [supers.push_back] as in src/Interpreter.cpp:386. *)
Definition apply_op {D} (conv : Z -> D) (o : ns_op D) (s : space D) : option (space D) :=
  match o with
  | CreateInt n v => create_int n v s
  | CreateDbl n v => create_dbl n v s
  | CreateStr n v => create_str n v s
  | AssignInt n x => assign_int conv n x s
  | AssignDbl n x => assign_dbl n x s
  | AssignStr n x => assign_str n x s
  | DefaultInt n x => assign_default_int conv n x s
  | DefaultDbl n x => assign_default_dbl n x s
  | DefaultStr n x => assign_default_str n x s
  | PushSuper x => Some (Space (ints s) (dbls s) (strs s) (supers s ++ [x]))
  end.

Fixpoint run_ops {D} (conv : Z -> D) (os : list (ns_op D)) (s : space D) : space D :=
  match os with
  | [] => s
  | o :: os' => run_ops conv os' (match apply_op conv o s with Some s' => s' | None => s end)
  end.
