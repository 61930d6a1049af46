(** Property theorems: C43 (geometric predicates). *)
From Coq Require Import Reals Arith Lia Lra.
From Verif Require Import RSum GeomPred_Model GeomPred_Spec GeomPred_Proofs.
Local Open Scope R_scope.

(** C43. [proj_to_segment] is a nearest point of the segment (also when the endpoints coincide). *)
Theorem proj_to_segment_nearest : forall n e0 e1 q, on_segment n e0 e1 (proj_to_segment n e0 e1 q) /\
  forall p, on_segment n e0 e1 p -> dist2 n q (proj_to_segment n e0 e1 q) <= dist2 n q p.
Proof. exact proj_main. Qed.
Print Assumptions proj_to_segment_nearest.

(** C43. [bounding_ball] contains the convex hull of the points, is centred at their mean, and is the smallest such. *)
Theorem bounding_ball_bounds : forall n n_point points, (0 < n_point)%nat -> let b := bounding_ball n n_point points in
  (forall p, in_hull n n_point points p -> dist2 n p (center b) <= radius_sq b) /\
  (forall i, center b i = rsum n_point (fun j => points j i) / INR n_point) /\
  exists j, (j < n_point)%nat /\ dist2 n (points j) (center b) = radius_sq b.
Proof. exact bounding_ball_main. Qed.
Print Assumptions bounding_ball_bounds.

(** C43. [intersects] holds exactly when the line (through two distinct points) meets the ball. *)
Theorem intersects_exact : forall n b e0 e1, 0 < dist2 n e1 e0 ->
  intersects n b e0 e1 = true <-> exists p, on_line n e0 e1 p /\ dist2 n (center b) p <= radius_sq b.
Proof. exact intersects_main. Qed.
Print Assumptions intersects_exact.

(** In the plane: the segment from (0,0) to (2,0), seen from (1,5) and (7,1); its bounding ball. *)
Example geom_examples :
  let e0 := fun i : nat => 0 in let e1 := fun i => if (i =? 0)%nat then 2 else 0 in
  proj_to_segment 2 e0 e1 (fun i => if (i =? 0)%nat then 1 else 5) 0%nat = 1 /\
  proj_to_segment 2 e0 e1 (fun i => if (i =? 0)%nat then 7 else 1) 0%nat = 2 /\
  radius_sq (bounding_ball 2 2 (fun j => if (j =? 0)%nat then e0 else e1)) = 1 /\
  intersects 2 (mk_ball (fun i => 3) 9) e0 e1 = true /\ intersects 2 (mk_ball (fun i => 3) 8) e0 e1 = false.
Proof.
  unfold proj_to_segment, bounding_ball, intersects, sqnorm, dot. cbn.
  repeat split; repeat (match goal with |- context [Req_EM_T ?a ?b] => destruct (Req_EM_T a b); try (exfalso; lra) end).
  - rewrite Rmax_right, Rmin_right; lra.
  - rewrite Rmax_right, Rmin_left; lra.
  - rewrite Rmax_left; lra.
  - destruct (Rle_dec _ _) as [|H]; [reflexivity|exfalso; apply H; lra].
  - destruct (Rle_dec _ _) as [H|]; [exfalso; lra|reflexivity].
Qed.
