(** Model of shared vertices and their handles: src/Vertex.cpp, include/Vertex.hpp, and of sharing data at vertices:
    src/Element.cpp:149-161, src/Solver.cpp:35-50.

    A heap maps the addresses of the live objects to their members; [None] is undefined behaviour (access to an object that
    does not exist, [begin] of an empty set). Coordinates are real numbers.

    Simplifications:
    - [std::set<T*>] is a finite set of addresses whose iteration order is the (unspecified) order of [elements] instead of
      the order of the addresses;
    - the reference count of the [std::shared_ptr]s of a vertex is the member [uses] of the vertex;
    - addresses are never reused;
    - [lock], [temp_vector] and [relax] of a vertex and [fix_admis_coef] of a handle are left out (no function here uses them). *)
From Coq Require Import Reals.
From stdpp Require Import gmap option list numbers.
Local Open Scope R_scope.

Definition point := nat -> R.   (** a [Mat<3>] by components *)

(** include/Vertex.hpp:28-30, 64-66 *)
Record vert := Vert { pos : point; notes : list Z; trbl_ptrs : gset nat; nont_ptrs : gset nat; neighbors : gset nat; uses : nat }.
(** include/Vertex.hpp:77-89; [shareable_value] is [None] if it has not been initialised *)
Record tptr := Tptr { ptr : nat; shareable_value : option R; mobile : bool; needs_smooth_ : bool }.
(** [hn]: the [Non_transferable_ptr]s, null or the address of a vertex *)
Record heap := Heap { hv : gmap nat vert; ht : gmap nat tptr; hn : gmap nat (option nat); next : nat }.

Definition set_hv (h : heap) m := Heap m (ht h) (hn h) (next h).
Definition set_ht (h : heap) m := Heap (hv h) m (hn h) (next h).
Definition set_hn (h : heap) m := Heap (hv h) (ht h) m (next h).
Definition put (h : heap) (v : nat) (x : vert) : heap := set_hv h (<[v := x]> (hv h)).
Definition set_trbl (x : vert) s := Vert (pos x) (notes x) s (nont_ptrs x) (neighbors x) (uses x).
Definition set_nont (x : vert) s := Vert (pos x) (notes x) (trbl_ptrs x) s (neighbors x) (uses x).
Definition set_nbs (x : vert) s := Vert (pos x) (notes x) (trbl_ptrs x) (nont_ptrs x) s (uses x).
Definition set_uses (x : vert) n := Vert (pos x) (notes x) (trbl_ptrs x) (nont_ptrs x) (neighbors x) n.
Definition set_pos (x : vert) p := Vert p (notes x) (trbl_ptrs x) (nont_ptrs x) (neighbors x) (uses x).
Definition set_notes (x : vert) r := Vert (pos x) r (trbl_ptrs x) (nont_ptrs x) (neighbors x) (uses x).
(** [*s.begin()] *)
Definition begin (s : gset nat) : option nat := head (elements s).

(** src/Vertex.cpp:178-184 [Non_transferable_ptr::nullify] *)
Definition nullify (n : nat) (h : heap) : option heap :=
  t ← hn h !! n;
  match t with
  | None => Some h
  | Some v => x ← hv h !! v; Some (set_hn (put h v (set_nont x (nont_ptrs x ∖ {[n]}))) (<[n := None]> (hn h)))
  end.
(** src/Vertex.cpp:20-29 [~Vertex] *)
Definition nullify_first (v : nat) (o : option heap) : option heap := h ← o; x ← hv h !! v; n ← begin (nont_ptrs x); nullify n h.
Definition forget (v : nat) (o : option heap) (u : nat) : option heap := h ← o; y ← hv h !! u; Some (put h u (set_nbs y (neighbors y ∖ {[v]}))).
Definition destroy_vertex (v : nat) (h : heap) : option heap :=
  x ← hv h !! v;
  h1 ← Nat.iter (size (nont_ptrs x)) (nullify_first v) (Some h);
  x1 ← hv h1 !! v;
  h2 ← foldl (forget v) (Some h1) (elements (neighbors x1));
  Some (set_hv h2 (delete v (hv h2))).

(** destruction of one of the [std::shared_ptr]s to a vertex *)
Definition release (v : nat) (h : heap) : option heap :=
  x ← hv h !! v;
  let h := put h v (set_uses x (uses x - 1)) in
  if decide (uses x - 1 = 0)%nat then destroy_vertex v h else Some h.

(** src/Vertex.cpp:93-97 *)
Definition t_new (p : point) (mbl : bool) (h : heap) : heap :=
  let a := next h in
  Heap (<[a := Vert p [] {[a]} ∅ ∅ 1]> (hv h)) (<[a := Tptr a (Some 0) mbl true]> (ht h)) (hn h) (S a).
(** src/Vertex.cpp:99-103: [shareable_value] is not initialised, [needs_smooth] gets its default *)
Definition t_copy (q : nat) (h : heap) : option heap :=
  t ← ht h !! q;
  x ← hv h !! ptr t;
  let a := next h in
  Some (Heap (<[ptr t := set_trbl (set_uses x (S (uses x))) ({[a]} ∪ trbl_ptrs x)]> (hv h)) (<[a := Tptr (ptr t) None (mobile t) true]> (ht h)) (hn h) (S a)).
(** src/Vertex.cpp:105-108: the body, then the destructor of the member [ptr] *)
Definition t_destroy (p : nat) (h : heap) : option heap :=
  t ← ht h !! p;
  x ← hv h !! ptr t;
  let h := put h (ptr t) (set_trbl x (trbl_ptrs x ∖ {[p]})) in
  release (ptr t) (set_ht h (delete p (ht h))).
(** src/Vertex.cpp:110-116; the assignment of a [shared_ptr] first takes the new and then gives up the old reference *)
Definition t_assign (p q : nat) (h : heap) : option heap :=
  t ← ht h !! p;
  x ← hv h !! ptr t;
  let h := put h (ptr t) (set_trbl x (trbl_ptrs x ∖ {[p]})) in
  t' ← ht h !! q;
  y ← hv h !! ptr t';
  let h := put h (ptr t') (set_uses y (S (uses y))) in
  let h := set_ht h (<[p := Tptr (ptr t') (shareable_value t) (mobile t) (needs_smooth_ t)]> (ht h)) in
  h ← release (ptr t) h;
  y ← hv h !! ptr t';
  Some (put h (ptr t') (set_trbl y ({[p]} ∪ trbl_ptrs y))).

(** src/Vertex.cpp:70-76 *)
Definition connect (v0 v1 : nat) (h : heap) : option heap :=
  if decide (v0 = v1) then Some h
  else x ← hv h !! v0;
       let h := put h v0 (set_nbs x ({[v1]} ∪ neighbors x)) in
       y ← hv h !! v1;
       Some (put h v1 (set_nbs y ({[v0]} ∪ neighbors y))).
(** src/Vertex.cpp:55-58 *)
Definition mass (v : nat) (h : heap) : option nat := x ← hv h !! v; Some (size (trbl_ptrs x)).
(** src/Vertex.cpp:31-53; one step of the last loop *)
Definition steal (w : nat) (this_ptr : nat) (o : option heap) : option heap := h ← o; y ← hv h !! w; p ← begin (trbl_ptrs y); t_assign p this_ptr h.
Definition eat (v w : nat) (h : heap) : option heap :=
  if decide (v = w) then Some h
  else
    x ← hv h !! v;
    y ← hv h !! w;
    let m := INR (size (trbl_ptrs x)) in
    let om := INR (size (trbl_ptrs y)) in
    let h := put h v (set_pos x (fun i => (m * pos x i + om * pos y i) / (m + om))) in
    h ← foldl (fun o u => h ← o; connect v u h) (Some h) (elements (neighbors y));
    x ← hv h !! v;
    let h := put h v (set_notes x (notes x ++ notes y)) in
    this_ptr ← begin (trbl_ptrs x);
    Nat.iter (size (trbl_ptrs y)) (steal w this_ptr) (Some h).

(** src/Vertex.cpp:138-161 *)
Definition n_new (v : nat) (h : heap) : option heap :=
  x ← hv h !! v;
  let a := next h in
  Some (Heap (<[v := set_nont x ({[a]} ∪ nont_ptrs x)]> (hv h)) (ht h) (<[a := Some v]> (hn h)) (S a)).
Definition n_insert (n : nat) (t : option nat) (h : heap) : option heap :=
  match t with None => Some h | Some v => x ← hv h !! v; Some (put h v (set_nont x ({[n]} ∪ nont_ptrs x))) end.
Definition n_copy (m : nat) (h : heap) : option heap :=
  t ← hn h !! m;
  let a := next h in
  n_insert a t (Heap (hv h) (ht h) (<[a := t]> (hn h)) (S a)).
Definition n_destroy (n : nat) (h : heap) : option heap := h ← nullify n h; Some (set_hn h (delete n (hn h))).
(** [other.ptr] is read after [this] has been nullified *)
Definition n_assign (n m : nat) (h : heap) : option heap :=
  h ← nullify n h;
  t ← hn h !! m;
  n_insert n t (set_hn h (<[n := t]> (hn h))).

(** ** Operations by handles *)
Inductive op :=
| ONew (p : point) (mbl : bool) | OCopy (q : nat) | ODestroy (p : nat) | OAssign (p q : nat)
| OEat (p q : nat)                 (** [p->eat( *q )] *)
| OConnect (p q : nat)             (** [Vertex::connect( *p, *q )] *)
| OMove (p : nat) (x : point)      (** [p->pos = x] *)
| ONote (p : nat) (r : list Z)     (** [p->record = r] *)
| OShare (p : nat) (a : R)         (** [p.shareable_value = a] *)
| OSmooth (p : nat) (b : bool)     (** [p.needs_smooth = b] *)
| NNew (p : nat)                   (** [Non_transferable_ptr( *p )] *)
| NCopy (m : nat) | NDestroy (n : nat) | NAssign (n m : nat) | NNullify (n : nat).

Definition step (o : op) (h : heap) : option heap :=
  match o with
  | ONew p mbl => Some (t_new p mbl h)
  | OCopy q => t_copy q h
  | ODestroy p => t_destroy p h
  | OAssign p q => t_assign p q h
  | OEat p q => a ← ht h !! p; b ← ht h !! q; eat (ptr a) (ptr b) h
  | OConnect p q => a ← ht h !! p; b ← ht h !! q; connect (ptr a) (ptr b) h
  | OMove p x => a ← ht h !! p; y ← hv h !! ptr a; Some (put h (ptr a) (set_pos y x))
  | ONote p r => a ← ht h !! p; y ← hv h !! ptr a; Some (put h (ptr a) (set_notes y r))
  | OShare p r => a ← ht h !! p; Some (set_ht h (<[p := Tptr (ptr a) (Some r) (mobile a) (needs_smooth_ a)]> (ht h)))
  | OSmooth p b => a ← ht h !! p; Some (set_ht h (<[p := Tptr (ptr a) (shareable_value a) (mobile a) b]> (ht h)))
  | NNew p => a ← ht h !! p; n_new (ptr a) h
  | NCopy m => n_copy m h
  | NDestroy n => n_destroy n h
  | NAssign n m => n_assign n m h
  | NNullify n => nullify n h
  end.
Definition empty_heap : heap := Heap ∅ ∅ ∅ 0.
Definition run (os : list op) (h : heap) : option heap := foldl (fun o a => h ← o; step a h) (Some h) os.

(** ** Queries *)
(** src/Vertex.cpp:60-68, 78-81 *)
Definition handles (v : nat) (h : heap) : option (list tptr) := x ← hv h !! v; mapM (fun p => ht h !! p) (elements (trbl_ptrs x)).
Definition is_mobile (v : nat) (h : heap) : option bool := l ← handles v h; Some (forallb mobile l).
Definition needs_smooth (v : nat) (h : heap) : option bool := l ← handles v h; Some (existsb needs_smooth_ l).
Definition are_neighbors (v0 v1 : nat) (h : heap) : option bool := x ← hv h !! v0; Some (bool_decide (v1 ∈ neighbors x)).
(** src/Vertex.cpp:83-91; reading an uninitialised value is undefined *)
Definition shared_value (reduction : list R -> R) (v : nat) (h : heap) : option R :=
  l ← handles v h; vals ← mapM shareable_value l; Some (reduction vals).
(** src/Vertex.cpp:6-14 for a nonempty vector *)
Definition vector_max (l : list R) : R := match l with [] => 0 | a :: l => foldl Rmax a l end.
Definition vector_min (l : list R) : R := match l with [] => 0 | a :: l => foldl Rmin a l end.

(** ** Sharing data, src/Solver.cpp:40-50. An element is the list of its vertex handles; [data] is its data at its vertices
    ([get], [set]). The parallel loops are sequences of single steps in any order: step [(e, i)] handles vertex [i] of element [e]. *)
Definition mesh := list (list nat).
Definition field := gmap (nat * nat) R.
(** src/Element.cpp:152 *)
Definition push_one (els : mesh) (get : nat -> nat -> R) (o : option heap) (k : nat * nat) : option heap :=
  h ← o; l ← els !! fst k; p ← l !! snd k; step (OShare p (get (fst k) (snd k))) h.
(** src/Element.cpp:159 *)
Definition fetch_one (els : mesh) (reduction : list R -> R) (h : heap) (o : option field) (k : nat * nat) : option field :=
  d ← o; l ← els !! fst k; p ← l !! snd k; t ← ht h !! p; a ← shared_value reduction (ptr t) h; Some (<[k := a]> d).
Definition share_vertex_data (els : mesh) (get : nat -> nat -> R) (reduction : list R -> R) (order0 order1 : list (nat * nat)) (h : heap) (d : field) : option (heap * field) :=
  h ← foldl (push_one els get) (Some h) order0;
  d ← foldl (fetch_one els reduction h) (Some d) order1;
  Some (h, d).
