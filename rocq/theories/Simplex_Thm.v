(** Theorems about discrete surface geometry. *)
From Coq Require Import Reals List Arith ZArith Lia Lra.
Import ListNotations.
From Verif Require Import RSum GeomPred_Model GeomPred_Spec Simplex_Model Simplex_Spec Simplex_Proofs Simplex_Proofs2 Simplex_Proofs3.
Local Open Scope R_scope.

(** The nearest point of segments in 2D or triangles in 3D. The tree can be built, and the search gives a nearest point of
    the surface if there is a point closer than [max_distance] and nothing otherwise, whatever the first guess is. *)
Theorem simplex_nearest n huge sims q max_distance guess :
  n = 2%nat \/ n = 3%nat -> (length sims <= 100)%nat \/ Forall (extended n) sims -> 0 <= max_distance -> 0 < guess ->
  exists fuel0, forall fuel fuel', (fuel0 <= fuel)%nat -> (fuel0 <= fuel')%nat ->
    exists t r, construct fuel n huge sims = Some t /\ nearest_point fuel' n huge t q max_distance guess = Some (Some r) /\ reference r = q /\
      if empty r then forall p, on_surface n sims p -> max_distance * max_distance <= dist2 n q p
      else nearest_of n sims q (pnt r) /\ dist_sq r = dist2 n q (pnt r) /\ dist_sq r < max_distance * max_distance.
Proof. exact (nearest_main n huge sims q max_distance guess). Qed.
Print Assumptions simplex_nearest.

(** Any tree that can be built gives this, also for surfaces for which building could go on forever. *)
Theorem simplex_nearest_any_tree n huge sims q max_distance guess fuel t :
  n = 2%nat \/ n = 3%nat -> construct fuel n huge sims = Some t -> 0 <= max_distance -> 0 < guess ->
  exists fuel0, forall fuel', (fuel0 <= fuel')%nat ->
    exists r, nearest_point fuel' n huge t q max_distance guess = Some (Some r) /\ reference r = q /\
      if empty r then forall p, on_surface n sims p -> max_distance * max_distance <= dist2 n q p
      else nearest_of n sims q (pnt r) /\ dist_sq r = dist2 n q (pnt r) /\ dist_sq r < max_distance * max_distance.
Proof. exact (nearest_any_tree n huge sims q max_distance guess fuel t). Qed.
Print Assumptions simplex_nearest_any_tree.

(** 101 copies of a point make sorting endless. *)
Theorem simplex_sort_refuted huge : 1 <= huge -> exists sims, bounded 2 1 sims /\ forall fuel, construct fuel 2 huge sims = None.
Proof. exact (sort_refuted huge). Qed.
Print Assumptions simplex_sort_refuted.

(** Intersections with a line: what is returned is the parameter of a point that is in a simplex up to the tolerance, and
    if the surface fits in a unit cube every crossing is returned. *)
Theorem simplex_crossings n huge solve tol sims fuel t p0 p1 :
  (0 < n)%nat -> 0 <= tol -> exact_solver n solve -> construct fuel n huge sims = Some t ->
  (forall r, In r (intersections n solve tol t p0 p1) -> exists s, In s sims /\ nearly_in_hull n tol s (at_param p0 p1 r)) /\
  (bounded n huge sims -> fits_unit n sims -> 0 < dist2 n p1 p0 ->
    forall s r, In s sims -> in_hull n n s (at_param p0 p1 r) -> solvable solve p0 p1 s -> In r (intersections n solve tol t p0 p1)).
Proof. exact (crossings_main n huge solve tol sims fuel t p0 p1). Qed.
Print Assumptions simplex_crossings.

(** In full: every crossing is returned whatever the size of the surface. This is false: the radius of the ball around a
    node is used where its square is needed. *)
Theorem simplex_intersections_refuted :
  ~ (forall n huge solve tol sims fuel t p0 p1, (0 < n)%nat -> 0 <= tol -> exact_solver n solve -> construct fuel n huge sims = Some t ->
     bounded n huge sims -> 0 < dist2 n p1 p0 ->
     forall s r, In s sims -> in_hull n n s (at_param p0 p1 r) -> solvable solve p0 p1 s -> In r (intersections n solve tol t p0 p1)).
Proof. exact intersections_refuted. Qed.
Print Assumptions simplex_intersections_refuted.

(** Missing: surfaces of extent greater than one. *)
Theorem simplex_intersections_partial n huge solve tol sims fuel t p0 p1 :
  (0 < n)%nat -> 0 <= tol -> exact_solver n solve -> construct fuel n huge sims = Some t ->
  bounded n huge sims -> 0 < dist2 n p1 p0 -> fits_unit n sims ->
  forall s r, In s sims -> in_hull n n s (at_param p0 p1 r) -> solvable solve p0 p1 s -> In r (intersections n solve tol t p0 p1).
Proof. intros N T X C B D U. exact (proj2 (crossings_main n huge solve tol sims fuel t p0 p1 N T X C) B U D). Qed.
Print Assumptions simplex_intersections_partial.

(** A triangle of the plane of the first two axes and a point above it: the distance is the height. *)
Definition a_triangle : nat -> nat -> R := fun j i => match j, i with 1%nat, 0%nat => 1 | 2%nat, 1%nat => 1 | _, _ => 0 end.
Definition a_query : nat -> R := fun i => match i with 0%nat => 1 / 4 | 1%nat => 1 / 4 | _ => 2 end.
Example simplex_nearest_example : exists fuel t r,
  construct fuel 3 1000 [a_triangle] = Some t /\ nearest_point fuel 3 1000 t a_query 10 (1 / 10) = Some (Some r) /\ empty r = false /\ dist_sq r = 4.
Proof.
  destruct (simplex_nearest 3 1000 [a_triangle] a_query 10 (1 / 10)) as (fuel & H); [now right|left; cbn; lia|lra|lra|]. destruct (H fuel fuel (le_n _) (le_n _)) as (t & r & C & N & _ & R).
  exists fuel, t, r. split; [exact C|]. split; [exact N|]. set (p := fun i : nat => match i with 0%nat => 1 / 4 | 1%nat => 1 / 4 | _ => 0 end).
  assert (P : on_surface 3 [a_triangle] p).
  { exists a_triangle. split; [now left|]. exists (fun j => match j with 0%nat => 1 / 2 | 1%nat => 1 / 4 | _ => 1 / 4 end). split; [intros [|[|j]] _; lra|]. split; [cbn; lra|]. intros [|[|[|i]]] I; try lia; cbn; lra. }
  assert (D : dist2 3 a_query p = 4) by (unfold dist2, a_query, p; cbn [rsum]; lra). destruct (empty r).
  - specialize (R p P). lra.
  - destruct R as ((S & M) & E & _). split; [reflexivity|]. specialize (M p P). rewrite E. apply Rle_antisym; [lra|]. destruct S as (s & [<-|[]] & (w & _ & _ & W)).
    assert (Z : pnt r 2%nat = 0) by (rewrite (W 2%nat ltac:(lia)); unfold a_triangle; cbn [rsum]; lra). unfold dist2. cbn [rsum]. rewrite Z. unfold a_query at 5 6.
    pose proof (Rle_0_sqr (a_query 0%nat - pnt r 0%nat)). pose proof (Rle_0_sqr (a_query 1%nat - pnt r 1%nat)). unfold Rsqr in *. lra.
Qed.
(** the diagonal of the unit square is crossed by a vertical line *)
Definition diagonal (l : R) : nat -> nat -> R := fun j _ => match j with 0%nat => 0 | _ => l end.
Definition vertical (x y : R) : nat -> R := fun i => match i with 0%nat => x | _ => y end.
Example simplex_crossings_example : exists t, construct 1 2 1000 [diagonal 1] = Some t /\ In (1 / 5) (intersections 2 cramer 0 t (vertical (1 / 5) 0) (vertical (1 / 5) 1)).
Proof.
  destruct (construct_short 2 1000 [diagonal 1]) as (t & T); [lia|cbn; lia|]. exists t. split; [exact T|].
  eapply (proj2 (simplex_crossings 2 1000 cramer 0 [diagonal 1] 1 t (vertical (1 / 5) 0) (vertical (1 / 5) 1) ltac:(lia) (Rle_refl 0) cramer_exact T)) with (s := diagonal 1).
  - intros s v i [<-|[]] V I. unfold diagonal. destruct v; lra.
  - intros s s' v v' i [<-|[]] [<-|[]] _ _ _. unfold diagonal. destruct v, v'; lra.
  - unfold dist2, vertical. cbn [rsum]. lra.
  - now left.
  - exists (fun j => match j with 0%nat => 4 / 5 | _ => 1 / 5 end). split; [intros [|j] _; lra|]. split; [cbn; lra|]. intros [|[|i]] I; try lia; unfold at_param, vertical, diagonal; cbn [rsum]; lra.
  - unfold solvable, cramer, system, vertical, diagonal. destruct (Req_EM_T _ 0) as [E|E]; [lra|discriminate].
Qed.
