(** Integrals over the elements of a mesh. *)
From Coq Require Import Reals List Arith.
From Coquelicot Require Import Coquelicot.
From Verif Require Import RSum Tensor_Spec Basis_Spec Connection_Spec Spatial_Model Spatial_Spec Jac_Model.
Import ListNotations.
Local Open Scope R_scope.

(** the integral over the unit cube of a function of [n] coordinates *)
Fixpoint cube_integral (n : nat) (F : (nat -> R) -> R) : R :=
  match n with
  | O => F (fun _ => 0)
  | S n => RInt (fun t => cube_integral n (fun y => F (fun l => match l with O => t | S l => y l end))) 0 1
  end.
(** [x] with coordinate [c] replaced *)
Definition moved (x : nat -> R) (c : nat) (t : R) (k : nat) : R := if (k =? c)%nat then t else x k.
(** a function of [n] coordinates, which is a polynomial of degree less than [d] in each of them *)
Definition poly_in_each (n d : nat) (F : (nat -> R) -> R) : Prop :=
  (forall y y', (forall l, (l < n)%nat -> y l = y' l) -> F y = F y') /\
  forall y l, (l < n)%nat -> exists c, forall x, F (moved y l x) = polynomial d c x.
(** the determinant of a matrix of two or three rows *)
Definition det2 (a b c d : R) : R := a * d - b * c.
Definition det (n : nat) (a : nat -> nat -> R) : R :=
  match n with
  | 2%nat => det2 (a 0%nat 0%nat) (a 0%nat 1%nat) (a 1%nat 0%nat) (a 1%nat 1%nat)
  | 3%nat => a 0%nat 0%nat * det2 (a 1%nat 1%nat) (a 1%nat 2%nat) (a 2%nat 1%nat) (a 2%nat 2%nat) - a 0%nat 1%nat * det2 (a 1%nat 0%nat) (a 1%nat 2%nat) (a 2%nat 0%nat) (a 2%nat 2%nat) + a 0%nat 2%nat * det2 (a 1%nat 0%nat) (a 1%nat 1%nat) (a 2%nat 0%nat) (a 2%nat 1%nat)
  | _ => 0
  end.
(** [D] is the derivative of the map of the unit cube to the element with vertices [v] *)
Definition derivative_of (n : nat) (v : nat -> nat -> R) (D : nat -> nat -> (nat -> R) -> R) : Prop :=
  forall r c y, (r < n)%nat -> (c < n)%nat -> derivable_pt_lim (fun t => multilinear n (v r) (moved y c t)) (y c) (D r c y).
(** the area of the quadrilateral of vertices 0, 2, 3 and 1 of a two-dimensional element, by the shoelace formula *)
Definition shoelace (v : nat -> nat -> R) : R :=
  let turn a b := v 0%nat a * v 1%nat b - v 0%nat b * v 1%nat a in (turn 0%nat 2%nat + turn 2%nat 3%nat + turn 3%nat 1%nat + turn 1%nat 0%nat) / 2.
(** the length of face [f = 2*d+s] of a two-dimensional element *)
Definition edge_length (v : nat -> nat -> R) (f : nat) : R :=
  let '(a, b) := nth f [(0, 1); (2, 3); (0, 2); (1, 3)]%nat (0, 0)%nat in sqrt ((v 0%nat b - v 0%nat a) ^ 2 + (v 1%nat b - v 1%nat a) ^ 2).

(** The elements are given by their vertices [v]: no face has been snapped, and the vertices of Cartesian elements are where they belong. *)
Definition by_corners (m : mesh) (node : nat -> R) (pos : nat -> nat -> arr) (v : nat -> nat -> arr) : Prop :=
  (forall i r q, In i (elems m) -> e_deformed (m_elem m i) = true -> (r < m_dim m)%nat -> (q < m_row_size m ^ m_dim m)%nat -> pos i r q = position (m_dim m) (m_row_size m) node (v i r) (fun _ => 0) q) /\
  (forall i, In i (elems m) -> e_deformed (m_elem m i) = false -> exists x, forall r u, (r < m_dim m)%nat -> (u < 2 ^ m_dim m)%nat -> v i r u = x r + e_size (m_elem m i) * INR (coords 2 (m_dim m) u r)).
