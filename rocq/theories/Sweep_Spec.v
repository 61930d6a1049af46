(** What neighbouring snapped faces must have in common. *)
From Coq Require Import Reals List Arith.
From Verif Require Import RSum Tensor_Spec Basis_Spec Connection_Model Spatial_Model Spatial_Spec Sweep_Model.
From Verif Require Import Snap_Spec.
Import ListNotations.
Local Open Scope R_scope.

(** the coordinates of a point of an element except number [a] *)
Definition without (a : nat) (x : nat -> R) (l : nat) : R := if (l <? a)%nat then x l else x (S l).
(** How far the wall [w] has been moved out of its element at the coordinates [x], in multiples of the length of the element there *)
Definition moved (nd rs : nat) (node : nat -> R) (adj : nat -> nat -> R) (w : wall) (x : nat -> R) : R :=
  (if (w_sign w =? 0)%nat then -1 else 1) * through (nd - 1) rs node (fun k => adj (w_elem w) ((2 * w_dim w + w_sign w) * rs ^ (nd - 1) + k)%nat) (without (w_dim w) x).
(** as snapping makes it: a polynomial through values at [n] points in each direction *)
Definition smooth (nd rs : nat) (node : nat -> R) (n : nat) (lob : nat -> R) (adj : nat -> nat -> R) (w : wall) : Prop :=
  exists val, forall x, moved nd rs node adj w x = through (nd - 1) n lob val (without (w_dim w) x).

(** The face [2*b+s] of an element with a wall that is not in dimension [b] *)
Record edge := { g_wall : wall; g_dim : nat; g_sign : nat }.
Definition edge_face (m : mesh) (g : edge) : nat := e_face (m_elem m (w_elem (g_wall g))) (2 * g_dim g + g_sign g)%nat.
Definition is_edge (nd : nat) (walls : list wall) (g : edge) : Prop := In (g_wall g) walls /\ (g_dim g < nd)%nat /\ g_dim g <> w_dim (g_wall g) /\ (g_sign g < 2)%nat.
(** Points of the faces [g] and [h] that are one point of the wall. The walls are faces of the same direction, or the elements
    meet at a corner; the remaining coordinate, in three dimensions, is the same *)
Definition joined (g h : edge) : Prop :=
  (g_dim g = g_dim h /\ w_dim (g_wall g) = w_dim (g_wall h)) \/ (g_dim g = w_dim (g_wall h) /\ w_dim (g_wall g) = g_dim h).
(** the directions of the two faces are not the first and the last of three *)
Definition straight (g h : edge) : Prop := g_dim g = g_dim h \/ (g_dim g + g_dim h <> 2)%nat.
Definition same_point (nd : nat) (g h : edge) (x y : nat -> R) : Prop :=
  x (g_dim g) = INR (g_sign g) /\ y (g_dim h) = INR (g_sign h) /\ forall c, (c < nd)%nat -> c <> g_dim g -> c <> w_dim (g_wall g) -> x c = y c.
Definition meet (nd rs : nat) (node : nat -> R) (adj : nat -> nat -> R) (g h : edge) : Prop :=
  forall x y, same_point nd g h x y -> moved nd rs node adj (g_wall g) x = moved nd rs node adj (g_wall h) y.
(** they are the two sides of a connection *)
Definition linked (m : mesh) (hang : list con) (i j : nat) : Prop :=
  exists c, In c (def_cons m) /\ (forall side, ~ In (c_face c side) (side_faces hang)) /\ ((c_face c false = i /\ c_face c true = j) \/ (c_face c false = j /\ c_face c true = i)).

(** A mesh that fits together, of deformed elements, of which some have one wall. [bcs] are the boundary connections, [hang] the
    connections between mortar faces and fine elements that [snap_faces] treats specially *)
Record tidy (m : mesh) (bcs : list (nat * nat)) (walls : list wall) : Prop := {
  ti_dim : (2 <= m_dim m <= 3)%nat;
  ti_rows : (2 <= m_row_size m)%nat;
  ti_elems : NoDup (elems m);
  ti_distinct : NoDup (inner_faces m ++ all_mortars m ++ map snd bcs);
  ti_sides : NoDup (side_faces (def_cons m) ++ coarse_faces m);
  ti_coarse : incl (coarse_faces m) (inner_faces m);
  ti_inside : incl (map fst bcs) (inner_faces m);
  ti_walls : NoDup (map w_elem walls);
  ti_wall : forall w, In w walls -> In (w_elem w) (elems m) /\ (w_dim w < m_dim m)%nat /\ (w_sign w < 2)%nat }.
(** every edge is at the boundary or linked to another *)
Definition bounded (m : mesh) (bcs : list (nat * nat)) (hang : list con) (g : edge) : Prop := exists ghost, In (edge_face m g, ghost) bcs /\ linked m hang (edge_face m g) ghost.
Definition lobatto (n : nat) (lob : nat -> R) : Prop := distinct n lob /\ lob 0%nat = 0 /\ lob (n - 1)%nat = 1.
