(** C13: Mutual_ptr *)
From Coq Require Import List Arith Lia Bool.
From Verif Require Import Outcome Mutual_Model Mutual_Spec Mutual_Proofs.
Import ListNotations.

(** C13. In every state a program can reach, the partner of a pointer is alive and its partner is the pointer. *)
Theorem mutual_ptr_mutual : forall h a b, reachable h -> partner_of h a = Some b -> alive h b /\ partner_of h b = Some a.
Proof.
  intros h a b R P. destruct (reachable_mutual h R _ _ P) as [P' _]. split; [exact (partner_alive _ _ _ P')|exact P'].
Qed.
Print Assumptions mutual_ptr_mutual.

(** C13. No operation touches a destroyed pointer: legal operations are executed, except for construction from null, which throws. *)
Theorem mutual_ptr_safe : forall h o, reachable h -> legal h o ->
  (exists a t u, o = Construct a t u None /\ step h o = Throw) \/ exists h', step h o = Ok h' /\ reachable h'.
Proof.
  intros h o R L. destruct (step_ok h o (reachable_mutual h R) L) as [H|(h' & E & _)]; [now left|right].
  exists h'. split; [exact E|]. exact (reach_step _ _ _ R L E).
Qed.
Print Assumptions mutual_ptr_safe.

(** C13. Pairing leaves each previous partner unpaired. *)
Theorem mutual_ptr_pair : forall h a b h', reachable h -> legal h (Pair a b) -> step h (Pair a b) = Ok h' ->
  partner_of h' a = Some b /\ partner_of h' b = Some a
  /\ (forall x, x <> a -> x <> b -> partner_of h x = Some a \/ partner_of h x = Some b -> partner_of h' x = None)
  /\ (forall x, x <> a -> x <> b -> partner_of h x <> Some a -> partner_of h x <> Some b -> partner_of h' x = partner_of h x)
  /\ (forall x, mine_of h' x = mine_of h x).
Proof. exact pair_effect. Qed.
Print Assumptions mutual_ptr_pair.

Theorem mutual_ptr_unpair : forall h a h', reachable h -> legal h (Unpair a) -> step h (Unpair a) = Ok h' ->
  partner_of h' a = None /\ (forall x, partner_of h x = Some a -> partner_of h' x = None)
  /\ (forall x, x <> a -> partner_of h x <> Some a -> partner_of h' x = partner_of h x)
  /\ (forall x, mine_of h' x = mine_of h x) /\ (forall x, alive h' x <-> alive h x).
Proof. exact unpair_effect. Qed.
Print Assumptions mutual_ptr_unpair.

(** C13. A destroyed pointer is nobody's partner. *)
Theorem mutual_ptr_destroy : forall h a h', reachable h -> legal h (Destroy a) -> step h (Destroy a) = Ok h' ->
  ~ alive h' a /\ (forall x, partner_of h' x <> Some a)
  /\ (forall x, partner_of h x = Some a -> partner_of h' x = None)
  /\ (forall x, x <> a -> partner_of h x <> Some a -> partner_of h' x = partner_of h x)
  /\ (forall x, x <> a -> mine_of h' x = mine_of h x /\ (alive h' x <-> alive h x)).
Proof. exact destroy_effect. Qed.
Print Assumptions mutual_ptr_destroy.

(** C13. Moving transfers the pairing; the moved-from pointer is nobody's partner. If T and U are the same type, the source must
    not be paired with itself, nor (for assignment) with the target. *)
Theorem mutual_ptr_move_construct : forall h a b h', reachable h -> legal h (MoveConstruct a b) -> step h (MoveConstruct a b) = Ok h' ->
  partner_of h b <> Some b ->
  partner_of h' a = partner_of h b /\ partner_of h' b = None /\ (forall x, partner_of h' x <> Some b)
  /\ (forall x, x <> a -> x <> b -> partner_of h x <> Some b -> partner_of h' x = partner_of h x)
  /\ mine_of h' a = mine_of h b /\ (forall x, x <> a -> mine_of h' x = mine_of h x).
Proof. exact move_construct_effect. Qed.
Print Assumptions mutual_ptr_move_construct.

Theorem mutual_ptr_move_assign : forall h a b h', reachable h -> legal h (MoveAssign a b) -> step h (MoveAssign a b) = Ok h' -> a <> b ->
  partner_of h b <> Some b -> partner_of h b <> Some a ->
  partner_of h' a = partner_of h b /\ partner_of h' b = None /\ (forall x, partner_of h' x <> Some b)
  /\ (forall x, x <> a -> x <> b -> partner_of h x = Some a -> partner_of h' x = None)
  /\ (forall x, x <> a -> x <> b -> partner_of h x <> Some a -> partner_of h x <> Some b -> partner_of h' x = partner_of h x)
  /\ (forall x, mine_of h' x = if x =? a then mine_of h b else mine_of h x).
Proof. exact assign_effect. Qed.
Print Assumptions mutual_ptr_move_assign.

(** The side conditions hold if T and U are different types: then a pointer's partner has another type than the pointer. *)
Theorem mutual_ptr_partner_type : forall h a b t u, reachable h -> type_of h b = Some (t, u) -> t <> u -> partner_of h b = Some a ->
  type_of h a <> type_of h b /\ a <> b.
Proof.
  intros h a b t u R Tb Htu P. assert (H : type_of h a <> type_of h b).
  { intros T. apply Htu. exact (type_neq h a b R P T t u Tb). }
  split; [exact H|]. congruence.
Qed.
Print Assumptions mutual_ptr_partner_type.

(** C13. Dereferencing gives the data of the partner. *)
Theorem mutual_ptr_get : forall h a, reachable h -> alive h a ->
  get_data h a = Ok (match partner_of h a with Some p => mine_of h p | None => None end).
Proof. exact get_data_ok. Qed.
Print Assumptions mutual_ptr_get.

(** If T and U are the same type and the source is paired with itself, it stays a partner after moving from it. *)
Example mutual_ptr_self_paired :
  exists h h', reachable h /\ legal h (MoveConstruct 2 1) /\ step h (MoveConstruct 2 1) = Ok h' /\ partner_of h' 2 = Some 1.
Proof.
  eexists. eexists. split; [|split; [|split]].
  - eapply reach_step with (o := Pair 1 1); [eapply reach_step with (o := Construct 1 5 5 (Some 7)); [apply reach_nil| |reflexivity]| |reflexivity].
    + cbn. unfold alive. auto.
    + cbn. unfold alive, type_of. cbn. repeat split; discriminate.
  - cbn. unfold alive. cbn. split; [auto|discriminate].
  - reflexivity.
  - reflexivity.
Qed.

(** pointer 1 is paired with 2, then with 3; then 1 is moved to 4 and 3 is destroyed *)
Fixpoint run (h : heap) (l : list op) : outcome heap := match l with [] => Ok h | o :: l => let! h := step h o in run h l end.
Example mutual_ptr_example :
  let empty := fun _ : nat => @None cell in
  let ops := [Construct 1 10 20 (Some 100); Construct 2 20 10 (Some 200); Construct 3 20 10 (Some 300); Pair 1 2; Pair 3 1] in
  (exists h, run empty ops = Ok h /\ map (partner_of h) [1; 2; 3] = [Some 3; None; Some 1] /\ get_data h 3 = Ok (Some 100))
  /\ (exists h, run empty (ops ++ [MoveConstruct 4 1]) = Ok h /\ map (partner_of h) [1; 2; 3; 4] = [None; None; Some 4; Some 3])
  /\ (exists h, run empty (ops ++ [MoveConstruct 4 1; Destroy 3]) = Ok h /\ map (partner_of h) [1; 2; 3; 4] = [None; None; None; None]).
Proof. cbv zeta. repeat split; eexists; split; reflexivity || split; reflexivity. Qed.
