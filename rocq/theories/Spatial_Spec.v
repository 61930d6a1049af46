(** Totals over a mesh of elements, in terms of the data that the kernels share. *)
From Coq Require Import Reals List Arith Permutation.
From Verif Require Import RSum Tensor_Spec Quad_Model Quad_Spec Row_Model Connection_Model Spatial_Model.
Import ListNotations.
Local Open Scope R_scope.

(** the integral of variable [v] by the tensor-product rule in [n] dimensions *)
Definition quad (n rs : nat) (w : nat -> R) (a : arr) (v : nat) : R := rsum (rs ^ n) (fun q => outer_power rs w n q * a (v * rs ^ n + q)%nat).
Definition lsum {A} (f : A -> R) (l : list A) : R := fold_right (fun x s => f x + s) 0 l.

(** the basis of script/Basis.py on a rule at least as exact as those of Gauss and Lobatto, symmetric about the middle *)
Definition basis_on (rs : nat) (node w : nat -> R) (ratio : R) : basis :=
  {| b_diff := py_derivative rs node; b_boundary := py_boundary rs node; b_weight := w; b_filter := py_filter rs node w;
     b_prolong := fun half i j => py_prolong rs node i j half; b_restrict := fun half i j => py_restrict rs node w i j half; b_step_ratio := ratio |}.
Definition symmetric (rs : nat) (w : nat -> R) : Prop := forall i, (i < rs)%nat -> w (rs - 1 - i)%nat = w i.

(** A mesh fits together. Every face that a kernel works on has a size, and lies on the positive or the negative end of its
    element. [ghosts] are the outer sides of boundary connections. *)
Definition side_faces (l : list con) : list nat := flat_map (fun c => [c_face c false; c_face c true]) l.
Definition elems (m : mesh) : list nat := car_elems m ++ def_elems m.
Definition cons (m : mesh) : list con := car_cons m ++ def_cons m.
Definition faces_of (nd : nat) (e : elem) : list nat := map (e_face e) (seq 0 (2 * nd)).
Definition mortars (nd : nat) (r : refined_face) : list nat := map (r_fine r) (seq 0 (n_fine nd (r_stretch r))).
Definition inner_faces (m : mesh) : list nat := flat_map (fun i => faces_of (m_dim m) (m_elem m i)) (elems m).
Definition all_mortars (m : mesh) : list nat := flat_map (mortars (m_dim m)) (ref_faces m).
Definition coarse_faces (m : mesh) : list nat := map r_coarse (ref_faces m).

Record fits (m : mesh) (size : nat -> R) (positive : nat -> bool) (ghosts : list nat) : Prop := {
  fit_dim : (1 <= m_dim m <= 3)%nat;
  fit_rows : (2 <= m_row_size m)%nat;
  (** elements have their own faces and parameters that can be divided by *)
  fit_elems : NoDup (elems m);
  fit_elem : forall i, In i (elems m) -> let e := m_elem m i in e_size e <> 0 /\
    (forall q, (q < m_row_size m ^ m_dim m)%nat -> e_tss e q <> 0 /\ (e_deformed e = true -> e_det e q <> 0)) /\
    (forall f, (f < 2 * m_dim m)%nat -> size (e_face e f) = e_size e /\ positive (e_face e f) = Nat.odd f);
  (** connections: the sides have the same size; the first side of a Cartesian connection is a positive face and the second a
      negative one; a deformed connection knows the signs of its faces *)
  fit_cons : forall c, In c (cons m) -> size (c_face c false) = size (c_face c true) /\
    forall side, positive (c_face c side) = if c_deformed c then face_sign (c_dir c) side else negb side;
  (** mortar faces are half as large as the coarse face *)
  fit_refined : forall r k, In r (ref_faces m) -> (k < n_fine (m_dim m) (r_stretch r))%nat ->
    size (r_fine r k) = size (r_coarse r) / 2 /\ positive (r_fine r k) = positive (r_coarse r);
  (** every face of an element is a side of one connection or coarse face of one refined face; the other sides are mortar faces
      and ghosts, each once *)
  fit_coarse : incl (coarse_faces m) (inner_faces m);
  fit_distinct : NoDup (inner_faces m ++ all_mortars m ++ ghosts);
  fit_matched : Permutation (side_faces (cons m) ++ coarse_faces m) (inner_faces m ++ all_mortars m ++ ghosts) }.

(** the amount of variable [v] in an element per unit of what [a] says, with the local time step taken out: the kernels multiply
    the rate of change in point [q] by the time step scale there *)
Definition amount (nd rs : nat) (w : nat -> R) (e : elem) (a : arr) (v : nat) : R :=
  e_size e ^ nd * quad nd rs w (fun k => a k * (if e_deformed e then e_det e (k mod rs ^ nd)%nat else 1) / e_tss e (k mod rs ^ nd)%nat) v.
(** the change of the total *)
Definition change (m : mesh) (before after : nat -> arr) (v : nat) : R :=
  lsum (fun i => amount (m_dim m) (m_row_size m) (b_weight (m_basis m)) (m_elem m i) (fun k => after i k - before i k) v) (elems m).
(** the total of values on faces, counted positive at positive faces *)
Definition through (m : mesh) (size : nat -> R) (positive : nat -> bool) (l : list nat) (s : nat -> arr) (v : nat) : R :=
  lsum (fun g => (if positive g then 1 else -1) * size g ^ (m_dim m - 1) * quad (m_dim m - 1) (m_row_size m) (b_weight (m_basis m)) (s g) v) l.
(** the total of what elements have in their cache *)
Definition cached (m : mesh) (s : nat -> arr) (v : nat) : R :=
  lsum (fun i => e_size (m_elem m i) ^ (m_dim m - 1) * quad (m_dim m) (m_row_size m) (b_weight (m_basis m)) (s i) v) (elems m).

(** the update of the PDE is added to the state; true of all but [Advection] and [Smooth_art_visc] *)
Definition additive (eq : pde) : Prop := forall update critical d v, write_update eq update critical d v = add_update (n_update eq) update critical d v.
