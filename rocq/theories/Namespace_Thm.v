(** C04 and C05: the HIL namespace *)
From Coq Require Import List ZArith Bool Ascii String.
From Verif Require Import Namespace_Model Namespace_Spec Namespace_Proofs.
Import ListNotations.

(** C04. In every history every name has at most one type. *)
Theorem namespace_one_type : forall D (conv : Z -> D) os, one_type (run_ops conv os empty_space).
Proof. intros D conv os. apply unique_one_type. apply run_ops_unique. apply empty_unique. Qed.
Print Assumptions namespace_one_type.

(** C04. Once a name exists it exists forever, with the same type. *)
Theorem namespace_type_stable : forall D (conv : Z -> D) os os' n e, holds (run_ops conv os empty_space) n e ->
  exists e', holds (run_ops conv (os ++ os') empty_space) n e' /\ entry_ty e' = entry_ty e.
Proof.
  intros D conv os os' n e H. rewrite run_ops_app. apply run_ops_keeps; [|exact H]. apply run_ops_unique. apply empty_unique.
Qed.
Print Assumptions namespace_type_stable.

(** C04. An assignment follows the documented rule: either it is refused (and by [run_ops] changes nothing), or the name
    stands for the new value afterwards and nothing else changes. *)
Theorem namespace_assign : forall D (conv : Z -> D) os n v cur, let s := run_ops conv os empty_space in
  current s n cur ->
  match assign_rule conv cur v with
  | Some e => exists s', assign_t conv n v s = Some s' /\ holds s' n e /\ same_but n s s'
  | None => assign_t conv n v s = None
  end.
Proof.
  intros D conv os n v cur s C.
  rewrite (assign_eq conv s n cur v (run_ops_unique conv os _ empty_unique) C).
  destruct (assign_rule conv cur v) as [e|]; [|reflexivity].
  exists (put_entry n e s). split; [reflexivity|]. split; [apply put_entry_holds|apply put_entry_same_but].
Qed.
Print Assumptions namespace_assign.

(** C04. Creation is refused exactly for existing names, and otherwise adds just that variable. *)
Theorem namespace_create : forall D (s : space D) n,
  (forall v, match create_int n v s with
             | Some s' => current s n None /\ holds s' n (EInt v) /\ same_but n s s' | None => exists e, holds s n e end) /\
  (forall v, match create_dbl n v s with
             | Some s' => current s n None /\ holds s' n (EDbl v) /\ same_but n s s' | None => exists e, holds s n e end) /\
  (forall v, match create_str n v s with
             | Some s' => current s n None /\ holds s' n (EStr v) /\ same_but n s s' | None => exists e, holds s n e end).
Proof.
  intros D s n. unfold create_int, create_dbl, create_str. destruct (exists_ s n) eqn:X.
  - apply exists_holds in X. repeat split; intros; exact X.
  - assert (C : current s n None) by (cbn; now apply not_exists_holds). repeat apply conj; intros v;
    (split; [exact C|]).
    + split; [apply (put_entry_holds n (EInt v))|apply (put_entry_same_but n (EInt v))].
    + split; [apply (put_entry_holds n (EDbl v))|apply (put_entry_same_but n (EDbl v))].
    + split; [apply (put_entry_holds n (EStr v))|apply (put_entry_same_but n (EStr v))].
Qed.
Print Assumptions namespace_create.

(** C04. Reading a name that the namespace itself defines gives its variable, in the type it has. *)
Theorem namespace_read_back : forall D (conv : Z -> D) os n e, let s := run_ops conv os empty_space in
  holds s n e -> found n s (Some e).
Proof. intros D conv os n e s H. apply found_here; [|exact H]. apply run_ops_unique. apply empty_unique. Qed.
Print Assumptions namespace_read_back.

Example namespace_example :
  let x := s_ "x" in let y := s_ "y" in
  let s := run_ops (fun z => z) [AssignDbl x 7%Z; AssignInt y 3%Z; AssignInt x 9%Z; AssignStr x (s_ "no"); AssignDbl y 5%Z;
                                 CreateStr (s_ "exit") (Heisenberg CbExit); AssignStr (s_ "exit") (s_ "no"); DefaultInt y 8%Z]
                   empty_space in
  dbls s x = Some (Value 9%Z) /\ ints s x = None /\ strs s x = None /\ ints s y = Some (Value 3%Z) /\ dbls s y = None
  /\ strs s (s_ "exit") = Some (Heisenberg CbExit).
Proof. repeat split; reflexivity. Qed.

(** C05, counterexample. Two super-namespaces, one of which defines the name: every lookup of its type succeeds, but
    [exists_recursive] denies it. And with a chain of four namespaces the name is defined in the last one, but not found. *)
Theorem namespace_lookup_refuted :
  (exists (s : space Z) n v, hereditarily one_type s /\ find_int n s = Some v /\ exists_recursive s n = false) /\
  (exists (s : space Z) n, hereditarily one_type s /\ exists_recursive s n = false /\ find_int n s <> None /\ List.length (supers s) = 1%nat) /\
  (exists (s : space Z) n e, hereditarily one_type s /\ resolves n s e /\ found n s None).
Proof.
  set (x := s_ "x"). set (def := Space (put (fun _ => None) x (Value 5%Z)) (fun _ => None) (fun _ => None) [] : space Z).
  set (up l := Space (fun _ => None) (fun _ => None) (fun _ => None) l : space Z).
  assert (OD : one_type def).
  { intros n e e' H H'. destruct e, e'; cbn in *; try discriminate; reflexivity. }
  assert (OU : forall l, one_type (up l)).
  { intros l n e e' H H'. destruct e; cbn in *; discriminate. }
  assert (HD : hereditarily one_type def) by (constructor; [exact OD|intros y []]).
  assert (HU : forall l, (forall y, In y l -> hereditarily one_type y) -> hereditarily one_type (up l)).
  { intros l H. constructor; [apply OU|exact H]. }
  assert (NU : forall l n e, ~ holds (up l) n e) by (intros l n [v|v|v] H; discriminate H).
  assert (R : forall s, resolves x s (EInt (Value 5%Z)) -> resolves x (up [s]) (EInt (Value 5%Z))).
  { intros s H. apply (ResSuper x (up [s]) [] s []); [apply NU|reflexivity|intros y []|exact H]. }
  split; [|split].
  - exists (up [up []; def]), x, (Value 5%Z). split; [|split; reflexivity].
    apply HU. intros y [<-|[<-|[]]]; [apply HU; intros y []|exact HD].
  - exists (up [up [def]]), x. split; [|split; [reflexivity|split; [discriminate|reflexivity]]].
    apply HU. intros y [<-|[]]. apply HU. intros y [<-|[]]. exact HD.
  - exists (up [up [up [def]]]), x, (EInt (Value 5%Z)). split; [|split; [|repeat split]].
    + apply HU. intros y [<-|[]]. apply HU. intros y [<-|[]]. apply HU. intros y [<-|[]]. exact HD.
    + apply R, R, R. apply ResHere. reflexivity.
Qed.
Print Assumptions namespace_lookup_refuted.

(** C05, what holds. A name for which [exists_recursive] is true can be looked up, and the variable is the namespace's own or,
    failing that, that of its first super-namespace. *)
Theorem namespace_exists_sound : forall D (s : space D) n, hereditarily one_type s -> exists_recursive s n = true ->
  defined n s /\
  exists e, found n s (Some e) /\ (holds s n e \/ (current s n None /\ exists x l, supers s = x :: l /\ holds x n e)).
Proof.
  intros D s n U H. split; [now apply exists_recursive_defined|].
  destruct (exists_recursive_found s n U H) as (e & F & [A|[A B]]); exists e; (split; [exact F|]); [left; exact A|right].
  split; [cbn; now apply not_exists_holds|exact B].
Qed.
Print Assumptions namespace_exists_sound.

(** C05, what holds. For hierarchies one level deep (such as those made by [make_sub] on a main interpreter), whatever the
    number of super-namespaces, lookup is the documented search; and with at most one super-namespace [exists_recursive]
    agrees with it. Missing for the full property: deeper hierarchies, and [exists_recursive] with several supers. *)
Theorem namespace_lookup_partial : forall D (s : space D) n, hereditarily one_type s -> depth_le 1 s ->
  ((exists e, found n s (Some e) /\ resolves n s e) \/ (found n s None /\ ~ defined n s)) /\
  ((List.length (supers s) <= 1)%nat -> (exists_recursive s n = true <-> defined n s)).
Proof.
  intros D s n U H. split; [now apply lookup_depth1|]. intros L. now apply depth1_exists_recursive.
Qed.
Print Assumptions namespace_lookup_partial.

Example namespace_lookup_example :
  let x := s_ "x" in let y := s_ "y" in
  let main := run_ops (fun z => z) [AssignDbl x 7%Z; AssignInt y 3%Z] empty_space in
  let sub := run_ops (fun z => z) [PushSuper main; AssignStr x (s_ "own")] empty_space in
  exists_recursive sub y = true /\ find_int y sub = Some (Value 3%Z) /\ find_dbl y sub = Some (inr (Value 3%Z))
  /\ find_str x sub = Some (Value (s_ "own")) /\ find_dbl x sub = None /\ exists_recursive sub (s_ "z") = false.
Proof. repeat split; reflexivity. Qed.
