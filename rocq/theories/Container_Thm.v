(** Property theorems: C15 (element containers), C16 (erase_if), C17 (sequence views). *)
From Coq Require Import ZArith List Bool.
From Verif Require Import Outcome Container_Model Container_Spec Container_Proofs.
Import ListNotations.
Local Open Scope Z_scope.

(** C15. Serial numbers are never reused; the elements, their handles and [at] are those of the live elements. *)
Theorem container_serial_numbers :
  forall (A : Type) (level : A -> Z) (ops : list (container_op A)) (c : container A) (outs : list Z),
  container_run (container_init A) ops = Ok (c, outs) ->
  NoDup (issued ops outs) /\
  c_vec c = map snd (live ops outs) /\
  elem_handles level c = Ok (map (fun x => (level (snd x), fst x)) (live ops outs)) /\
  forall ref_level sn, at_ level c ref_level sn =
    match element_numbered sn (live ops outs) with
    | Some e => if level e =? ref_level then Ok e else Throw
    | None => Throw
    end.
Proof. exact @container_history. Qed.
Print Assumptions container_serial_numbers.

(** C15. [purge] reports the number of elements it deletes. *)
Theorem container_purge_report :
  forall (A : Type) (ops1 ops2 : list (container_op A)) (p : A -> bool) (c : container A) (outs1 : list Z) (k : Z) (outs2 : list Z),
  container_run (container_init A) (ops1 ++ Purge p :: ops2) = Ok (c, outs1 ++ k :: outs2) ->
  length outs1 = length ops1 ->
  k = Z.of_nat (length (filter (fun x => p (snd x)) (live ops1 outs1))).
Proof. exact @purge_report. Qed.
Print Assumptions container_purge_report.

(** C15. No history of fewer than 2^31 calls throws or reaches undefined behaviour. *)
Theorem container_histories_run :
  forall (A : Type) (ops : list (container_op A)),
  Z.of_nat (length ops) <= int_max ->
  exists c outs, container_run (container_init A) ops = Ok (c, outs).
Proof. exact @container_total. Qed.
Print Assumptions container_histories_run.

(** A history meeting the hypotheses: three elements (numbers stand for elements, the level is the number mod 10),
    the second one purged, then another created. *)
Example container_example :
  exists c, container_run (container_init Z) [Emplace 10; Emplace 21; Emplace 32; Purge (fun e => e =? 21); Emplace 43]
            = Ok (c, [0; 1; 2; 1; 3]) /\
  live [Emplace 10; Emplace 21; Emplace 32; Purge (fun e => e =? 21); Emplace 43] [0; 1; 2; 1; 3] = [(0, 10); (2, 32); (3, 43)] /\
  at_ (fun e => e mod 10) c 2 2 = Ok 32 /\ at_ (fun e => e mod 10) c 1 1 = Throw /\ at_ (fun e => e mod 10) c 1 2 = Throw.
Proof. eexists. repeat split. Qed.

(** C16. [erase_if] keeps exactly the entries whose predicate is false, in order, evaluating the predicate (which may
    have side effects on a state) once per entry in order; no out-of-range access. *)
Theorem erase_if_keeps :
  forall (A S : Type) (condition : S -> A -> bool * S) (vec : list A) (st : S),
  erase_if condition vec st = Ok (kept condition vec st).
Proof. exact @erase_if_correct. Qed.
Print Assumptions erase_if_keeps.

(** C16. The side-effect-free case. *)
Theorem erase_if_pure :
  forall (A : Type) (p : A -> bool) (vec : list A),
  erase_if (fun (st : unit) x => (p x, tt)) vec tt = Ok (filter (fun x => negb (p x)) vec, tt).
Proof. exact @erase_if_filter. Qed.
Print Assumptions erase_if_pure.

Example erase_if_example :
  erase_if (fun n x => (Z.even x, n + 1)) [1; 2; 3; 4; 5] 0 = Ok ([1; 3; 5], 5).
Proof. reflexivity. Qed.

(** C17. A view of a vector shows the converted entries. *)
Theorem vector_view_enumerates :
  forall (A B : Type) (convert : A -> B) (v : list A), shows (vector_view convert v) (map convert v).
Proof. exact @vector_view_shows. Qed.
Print Assumptions vector_view_enumerates.

(** C17. A view of a sequence shows its converted entries. *)
Theorem sequence_view_enumerates :
  forall (A B : Type) (convert : A -> B) (s : sequence A) (l : list A),
  shows s l -> shows (sequence_view convert s) (map convert l).
Proof. exact @sequence_view_shows. Qed.
Print Assumptions sequence_view_enumerates.

(** C17. A concatenation shows the first part, then the second (either may be empty). *)
Theorem concatenation_enumerates :
  forall (A : Type) (s0 s1 : sequence A) (l0 l1 : list A),
  shows s0 l0 -> shows s1 l1 -> shows (concatenation s0 s1) (l0 ++ l1).
Proof. exact @concatenation_shows. Qed.
Print Assumptions concatenation_enumerates.

(** C17. An indexed view shows the selected entries. *)
Theorem index_enumerates :
  forall (A : Type) (s : sequence A) (l : list A) (inds : list Z) (sel : list A),
  shows s l -> Forall2 (fun i x => 0 <= i /\ nth_error l (Z.to_nat i) = Some x) inds sel ->
  shows (index_seq s inds) sel.
Proof. exact @index_shows. Qed.
Print Assumptions index_enumerates.

(** C17. The connection view shows first every conformal connection, then every fine connection of every
    refined connection with 1, 2 and 4 fine elements; an index past the end throws. *)
Theorem connection_view_enumerates :
  forall (A : Type) (cons : list A) (r1 r2 r4 : list (list A)),
  Forall (fun rc => Z.of_nat (length rc) = 1) r1 -> Forall (fun rc => Z.of_nat (length rc) = 2) r2 ->
  Forall (fun rc => Z.of_nat (length rc) = 4) r4 ->
  shows (connection_view cons [r1; r2; r4]) (cons ++ concat r1 ++ concat r2 ++ concat r4) /\
  (forall i, seq_size (connection_view cons [r1; r2; r4]) <= i ->
             seq_get (connection_view cons [r1; r2; r4]) i = Throw).
Proof. exact @connection_view_shows. Qed.
Print Assumptions connection_view_enumerates.

Example connection_view_example :
  map (seq_get (connection_view [100; 101] [[[1]]; [[20; 21]; [22; 23]]; [[40; 41; 42; 43]]]))
      [0; 1; 2; 3; 6; 7; 10; 11] =
  [Ok 100; Ok 101; Ok 1; Ok 20; Ok 23; Ok 40; Ok 43; Throw].
Proof. reflexivity. Qed.
