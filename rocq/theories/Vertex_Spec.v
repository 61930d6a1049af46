(** Specification of shared vertices: what handles refer to, without any of the bookkeeping of the implementation. *)
From Coq Require Import Reals.
From stdpp Require Import gmap option list numbers.
From Verif Require Import Vertex_Model.
Local Open Scope R_scope.

(** [refers]: the vertex each [Transferable_ptr] refers to (vertices are named after the handle they were created with);
    [watch]: what each [Non_transferable_ptr] refers to, if anything; [where]: positions; [linked]: edges; [names]: names given so far *)
Record world := World { refers : gmap nat nat; watch : gmap nat (option nat); where_ : nat -> point; linked : nat -> nat -> Prop; names : nat }.

(** a vertex exists as long as some handle refers to it *)
Definition exists_v (T : gmap nat nat) (v : nat) : Prop := exists p, T !! p = Some v.
Global Instance exists_v_dec T v : Decision (exists_v T v).
Proof.
  destruct (decide (map_Exists (fun _ u => u = v) T)) as [H|H]; [left|right].
  - destruct H as (p & u & E & ->). now exists p.
  - intros (p & E). apply H. now exists p, v.
Defined.
(** the number of handles that refer to a vertex *)
Definition count (T : gmap nat nat) (v : nat) : nat := size (filter (fun k => k.2 = v) T).
(** what happens when vertices vanish: whatever refers to them is reset *)
Definition prune (w : world) : world :=
  World (refers w) ((fun t => match t with Some v => if decide (exists_v (refers w) v) then Some v else None | None => None end) <$> watch w)
        (where_ w) (fun u v => linked w u v /\ exists_v (refers w) u /\ exists_v (refers w) v) (names w).

Definition set_refers (w : world) T := World T (watch w) (where_ w) (linked w) (names w).
Definition set_watch (w : world) N := World (refers w) N (where_ w) (linked w) (names w).
Definition next_name (w : world) := World (refers w) (watch w) (where_ w) (linked w) (S (names w)).
Definition set_where (w : world) (v : nat) (p : point) := World (refers w) (watch w) (fun u => if decide (u = v) then p else where_ w u) (linked w) (names w).

(** include/Vertex.hpp:44-53: all handles to [b] are changed to refer to [a], the positions are averaged, the edges of [b] become edges of [a] *)
Definition merge (a b : nat) (w : world) : world :=
  if decide (a = b) then w
  else
    let m := INR (count (refers w) a) in
    let n := INR (count (refers w) b) in
    prune (World ((fun v => if decide (v = b) then a else v) <$> refers w) (watch w)
                 (fun u => if decide (u = a) then (fun i => (m * where_ w a i + n * where_ w b i) / (m + n)) else where_ w u)
                 (fun u v => linked w u v \/ (u = a /\ linked w b v /\ v <> a) \/ (v = a /\ linked w b u /\ u <> a)) (names w)).

Definition spec_step (o : op) (w : world) : option world :=
  match o with
  | ONew p _ => Some (next_name (set_where (set_refers w (<[names w := names w]> (refers w))) (names w) p))
  | OCopy q => v ← refers w !! q; Some (next_name (set_refers w (<[names w := v]> (refers w))))
  | ODestroy p => v ← refers w !! p; Some (prune (set_refers w (delete p (refers w))))
  | OAssign p q => _ ← refers w !! p; v ← refers w !! q; Some (prune (set_refers w (<[p := v]> (refers w))))
  | OEat p q => a ← refers w !! p; b ← refers w !! q; Some (merge a b w)
  | OConnect p q => a ← refers w !! p; b ← refers w !! q;
      Some (if decide (a = b) then w else World (refers w) (watch w) (where_ w) (fun u v => linked w u v \/ (u = a /\ v = b) \/ (u = b /\ v = a)) (names w))
  | OMove p x => v ← refers w !! p; Some (set_where w v x)
  | ONote p _ | OShare p _ | OSmooth p _ => _ ← refers w !! p; Some w
  | NNew p => v ← refers w !! p; Some (next_name (set_watch w (<[names w := Some v]> (watch w))))
  | NCopy m => t ← watch w !! m; Some (next_name (set_watch w (<[names w := t]> (watch w))))
  | NDestroy n => _ ← watch w !! n; Some (set_watch w (delete n (watch w)))
  | NAssign n m => _ ← watch w !! n; t ← watch w !! m; Some (set_watch w (<[n := if decide (n = m) then None else t]> (watch w)))
  | NNullify n => _ ← watch w !! n; Some (set_watch w (<[n := None]> (watch w)))
  end.
Definition empty_world : world := World ∅ ∅ (fun _ _ => 0) (fun _ _ => False) 0.
Definition spec_run (os : list op) (w : world) : option world := foldl (fun o a => w ← o; spec_step a w) (Some w) os.

(** what it means for a heap to represent a world *)
Record represents (h : heap) (w : world) : Prop := {
  rep_refers : ptr <$> ht h = refers w;
  rep_watch : hn h = watch w;
  rep_next : next h = names w;
  rep_live : forall v, is_Some (hv h !! v) <-> exists_v (refers w) v;
  rep_pos : forall v x, hv h !! v = Some x -> forall i, pos x i = where_ w v i;
  rep_mass : forall v x, hv h !! v = Some x -> uses x = size (trbl_ptrs x);
  rep_trbl : forall v x p, hv h !! v = Some x -> p ∈ trbl_ptrs x <-> refers w !! p = Some v;
  rep_nont : forall v x n, hv h !! v = Some x -> n ∈ nont_ptrs x <-> watch w !! n = Some (Some v);
  rep_nbs : forall v x u, hv h !! v = Some x -> u ∈ neighbors x <-> linked w v u
}.
(** facts about every reachable world *)
Record coherent (w : world) : Prop := {
  coh_watch : forall n v, watch w !! n = Some (Some v) -> exists_v (refers w) v;
  coh_linked : forall u v, linked w u v -> linked w v u /\ u <> v /\ exists_v (refers w) u /\ exists_v (refers w) v;
  coh_names : forall p v, refers w !! p = Some v -> (p < names w /\ v < names w)%nat;
  coh_wnames : forall n, is_Some (watch w !! n) -> (n < names w)%nat
}.

(** ** Positions over a history *)
(** the position handle number [p] was created at, if the next name is [n] before the operations [os] *)
Fixpoint births (n : nat) (os : list op) (p : nat) : point :=
  match os with
  | [] => fun _ => 0
  | ONew x _ :: os => if decide (p = n) then x else births (S n) os p
  | (OCopy _ | NNew _ | NCopy _) :: os => births (S n) os p
  | _ :: os => births n os p
  end.
(** operations that neither move a vertex nor copy, destroy or reassign a handle *)
Definition only_merges (o : op) : Prop := match o with OCopy _ | ODestroy _ | OAssign _ _ | OMove _ _ => False | _ => True end.
Definition mean (l : list R) : R := foldr Rplus 0 l / INR (length l).
(** operations that change handle [p] itself *)
Definition reassigns (p : nat) (o : op) : Prop := match o with ODestroy q | OAssign q _ => q = p | _ => False end.

(** ** Sharing *)
(** vertex [i] of element [e] is vertex [v] *)
Definition touches (els : mesh) (w : world) (e i v : nat) : Prop := exists l p, els !! e = Some l /\ l !! i = Some p /\ refers w !! p = Some v.
Definition place (els : mesh) (k : nat * nat) (p : nat) : Prop := exists l, els !! k.1 = Some l /\ l !! k.2 = Some p.
(** each element has its own handles, and there are no others *)
Record owns_handles (els : mesh) (w : world) : Prop := {
  own_live : forall k p, place els k p -> is_Some (refers w !! p);
  own_once : forall k k' p, place els k p -> place els k' p -> k = k';
  own_all : forall p, is_Some (refers w !! p) -> exists k, place els k p
}.
Definition greatest (m : R) (P : R -> Prop) : Prop := P m /\ forall a, P a -> a <= m.
Definition least (m : R) (P : R -> Prop) : Prop := P m /\ forall a, P a -> m <= a.

(** the handles an operation needs *)
Definition needs_t (o : op) : list nat :=
  match o with OCopy p | ODestroy p | OMove p _ | ONote p _ | OShare p _ | OSmooth p _ | NNew p => [p] | OAssign p q | OEat p q | OConnect p q => [p; q] | _ => [] end.
Definition needs_n (o : op) : list nat := match o with NCopy n | NDestroy n | NNullify n => [n] | NAssign n m => [n; m] | _ => [] end.
(** operations that change the reference [n] itself *)
Definition resets (n : nat) (o : op) : Prop := match o with NDestroy m | NAssign m _ | NNullify m => m = n | _ => False end.
(** states a program can get into *)
Definition reachable (h : heap) : Prop := exists os, run os empty_heap = Some h.
(** handle [p] refers to vertex [v] *)
Definition refers_to (h : heap) (p v : nat) : Prop := exists t, ht h !! p = Some t /\ ptr t = v.
