(** Uniform viscous flow. *)
From Coq Require Import Reals List Arith.
From Verif Require Import RSum Connection_Model Spatial_Model Spatial_Spec Free_Spec.
Import ListNotations.
Local Open Scope R_scope.

(** where nothing varies nothing diffuses *)
Definition still (nd : nat) (eq : pde) : Prop :=
  forall s normal g v d, (forall w j, (w < n_extrap eq)%nat -> (j < nd)%nat -> g w j = 0) -> (v < n_update eq)%nat -> (d < nd)%nat -> flux_diff eq s normal g v d = 0.
(** the deformed elements see at their faces the normals [fn] with which the fluxes there are computed *)
Definition sees (m : mesh) (fn : nat -> arr) : Prop := forall i k j q, In i (elems m) -> e_deformed (m_elem m i) = true -> (k < 2 * m_dim m)%nat -> (j < m_dim m)%nat -> (q < m_row_size m ^ (m_dim m - 1))%nat ->
  face_normal (m_dim m) (m_row_size m) (m_elem m i) k (j * m_row_size m ^ (m_dim m - 1) + q)%nat = fn (e_face (m_elem m i) k) (j * m_row_size m ^ (m_dim m - 1) + q)%nat.
(** a boundary condition for diffusive fluxes: it changes the ghost faces only, and if there is no flux in the mesh there is none
    from outside *)
Definition insulating (m : mesh) (n : nat) (ghosts : list nat) (flux_bc : (nat -> arr) -> nat -> arr) : Prop :=
  forall s, (forall id, ~ In id ghosts -> flux_bc s id = s id) /\
    ((forall id, In id (inner_faces m) -> filled n (m_row_size m ^ (m_dim m - 1)) (fun _ => 0) (s id)) -> forall id, In id ghosts -> filled n (m_row_size m ^ (m_dim m - 1)) (fun _ => 0) (flux_bc s id)).
