(** When the flow is admissible, and which of the states reached by repeated smearing is returned. *)
From Coq Require Import Reals List Arith.
From Verif Require Import Outcome Admis_Model.
Open Scope R_scope.

Definition finite (x : double) : Prop := exists r, x = Fin r.
Definition positive (x : double) : Prop := exists r, x = Fin r /\ 0 < r.
(** momentum, density and energy at [n] points *)
Definition all_finite (nd n : nat) (data : nat -> double) : Prop := forall k, (k < (nd + 2) * n)%nat -> finite (data k).
Definition good (nd n : nat) (data : nat -> double) : Prop :=
  all_finite nd n data /\ forall q, (q < n)%nat -> positive (data (nd * n + q)%nat) /\ positive (data ((nd + 1) * n + q)%nat).

(** the blocks of data of an element with their number of points: the interior and the 2 nd faces *)
Definition block (nd rs : nat) (e : element) (n : nat) (data : nat -> double) : Prop :=
  n = (rs ^ nd)%nat /\ data = state e \/ exists i, (i < 2 * nd)%nat /\ n = (rs ^ (nd - 1))%nat /\ data = face e i.
Definition good_element (nd rs : nat) (e : element) : Prop := forall n data, block nd rs e n data -> good nd n data.
(** the fine faces of a refined face: one per subset of the dimensions that are not stretched *)
Definition fine_faces (nd : nat) (r : refined_face) : nat := (2 ^ length (filter (fun d => negb (stretch r d)) (seq 0 (nd - 1))))%nat.
Definition good_refined (nd rs : nat) (r : refined_face) : Prop := forall i, (i < fine_faces nd r)%nat -> good nd (rs ^ (nd - 1)) (fine r i).
(** some value that is checked is not finite *)
Definition not_finite (nd rs : nat) (elems : list element) (refs : list refined_face) : Prop :=
  (exists e n data, In e elems /\ block nd rs e n data /\ ~ all_finite nd n data) \/
  exists r i, In r refs /\ (i < fine_faces nd r)%nat /\ ~ all_finite nd (rs ^ (nd - 1)) (fine r i).

(** [s k] is the state after k steps; those from [i] to [2 i - 1] are admissible *)
Definition settled {A : Type} (adm : A -> outcome bool) (s : nat -> A) (i : nat) : Prop := (1 <= i)%nat /\ forall k, (i <= k < 2 * i)%nat -> adm (s k) = Ok true.
