(** Model of discrete surface geometry: include/Simplex_geom.hpp, src/Simplex_geom.cpp:6-30, include/Nearest_point.hpp.

    Points are functions [nat -> R] used below the dimension, [double] is [R].

    Simplifications:
    - [misc_data] of a tree node holds the simplices themselves instead of their indices;
    - a node of the tree ([Tree]) has its position and size instead of integer coordinates and a refinement level;
    - [in_child] is represented by the list of the simplices that are not in a child yet;
    - recursion whose depth depends on the values (sorting the simplices, doubling the guess) has fuel;
    - the LU factorisation of Eigen ([lu], [rcond], [solve], lines 90-92) is a function [solve] that returns nothing if the
      reciprocal condition number is at most 1e-7;
    - timing is left out. *)
From Coq Require Import Reals List Arith.
Import ListNotations.
From Verif Require Import RSum GeomPred_Model.
Local Open Scope R_scope.

(** column [j] of the matrix is vertex [j] *)
Definition simplex : Type := nat -> point.
(** Eigen's [minCoeff] of [k + 1] entries *)
Fixpoint min_coeff (k : nat) (f : nat -> R) : R := match k with O => f 0%nat | S k' => Rmin (min_coeff k' f) (f (S k')) end.
Definition rlt (a b : R) : bool := if Rlt_dec a b then true else false.
Definition rle (a b : R) : bool := if Rle_dec a b then true else false.

(** ** The tree *)
(** src/Tree.cpp:33-35 *)
Record cube : Type := Cube { origin : point; side : R }.
Definition cube_center (c : cube) : point := fun i => origin c i + / 2 * side c.
(** src/Tree.cpp:56-70 *)
Definition child (n : nat) (c : cube) (k : nat) : cube :=
  Cube (fun i => origin c i + side c / 2 * INR ((k / 2 ^ (n - 1 - i)) mod 2)) (side c / 2).
Inductive tree : Type := Node (c : cube) (misc : list simplex) (children : list tree).

(** include/Simplex_geom.hpp:31-43; [huge] is the greatest [double] *)
Definition box_min (n : nat) (huge : R) (sims : list simplex) : point :=
  fun i => fold_left (fun a s => fold_left (fun a v => Rmin a (s v i)) (seq 0 n) a) sims huge.
Definition box_max (n : nat) (huge : R) (sims : list simplex) : point :=
  fun i => fold_left (fun a s => fold_left (fun a v => Rmax a (s v i)) (seq 0 n) a) sims (- huge).

(** include/Simplex_geom.hpp:53-57 *)
Definition fits (n : nat) (c : cube) (s : simplex) : bool :=
  forallb (fun v => (rlt 0 (min_coeff (n - 1) (fun i => s v i - origin c i)) && rlt (max_coeff (n - 1) (fun i => s v i - origin c i)) (side c))%bool) (seq 0 n).
(** include/Simplex_geom.hpp:49-66 *)
Fixpoint distribute (n : nat) (cs : list cube) (rest : list simplex) : list (cube * list simplex) * list simplex :=
  match cs with
  | [] => ([], rest)
  | c :: cs => let (inside, rest) := partition (fits n c) rest in let (l, rest) := distribute n cs rest in ((c, inside) :: l, rest)
  end.
Fixpoint all_some {A} (l : list (option A)) : option (list A) :=
  match l with [] => Some [] | Some a :: l => option_map (cons a) (all_some l) | None :: _ => None end.
(** include/Simplex_geom.hpp:46-68 *)
Fixpoint sort_simplices (fuel n : nat) (c : cube) (misc : list simplex) : option tree :=
  match fuel with
  | O => None
  | S fuel =>
      let (l, remaining) := distribute n (map (child n c) (seq 0 (2 ^ n))) misc in
      option_map (Node c remaining)
        (all_some (map (fun k => if (100 <? length (snd k))%nat then sort_simplices fuel n (fst k) (snd k) else Some (Node (fst k) (snd k) [])) l))
  end.
(** include/Simplex_geom.hpp:118-125 *)
Definition root_cube (n : nat) (huge : R) (sims : list simplex) : cube :=
  Cube (box_min n huge sims) (max_coeff (n - 1) (fun i => box_max n huge sims i - box_min n huge sims i)).
Definition construct (fuel n : nat) (huge : R) (sims : list simplex) : option tree := sort_simplices fuel n (root_cube n huge sims) sims.

(** ** Nearest point *)
(** include/Nearest_point.hpp:19-57 *)
Record near : Type := Near { reference : point; pnt : point; dist_sq : R; empty : bool }.
Definition no_point (ref : point) (max_distance : R) : near := Near ref ref (max_distance * max_distance) true.
Definition at_point (n : nat) (ref p : point) : near := Near ref p (sqnorm n (fun i => p i - ref i)) false.
Definition merge (a b : near) : near := if rlt (dist_sq b) (dist_sq a) then b else a.
Definition merge_point (n : nat) (a : near) (p : point) : near := merge a (at_point n (reference a) p).
(** include/Nearest_point.hpp:36-40 *)
Definition convert (n : nat) (huge : R) (a : near) : near := if empty a then no_point (reference a) huge else at_point n (reference a) (pnt a).

(** src/Simplex_geom.cpp:7-30. If the triangle is degenerate the entries of [lstsq] are not numbers or infinite, and the
    comparisons fail. *)
Definition edges (nearest : near) (s : simplex) (q : point) : near :=
  fold_left (fun a e => merge_point 3 a (proj_to_segment 3 (s e) (s ((e + 1) mod 3)%nat) q)) (seq 0 3) nearest.
Definition merge_simplex (n : nat) (nearest : near) (s : simplex) (q : point) : near :=
  if (n =? 2)%nat then merge_point 2 nearest (proj_to_segment 2 (s 0%nat) (s 1%nat) q)
  else
    let u := fun i => s 1%nat i - s 0%nat i in
    let v := fun i => s 2%nat i - s 0%nat i in
    let d := fun i => q i - s 0%nat i in
    let det := dot 3 u u * dot 3 v v - dot 3 u v * dot 3 u v in
    if Req_EM_T det 0 then edges nearest s q
    else
      let a := (dot 3 v v * dot 3 u d - dot 3 u v * dot 3 v d) / det in
      let b := (dot 3 u u * dot 3 v d - dot 3 u v * dot 3 u d) / det in
      if (rle 0 a && rle 0 b && rle (a + b) 1)%bool then merge_point 3 nearest (fun i => s 0%nat i + (u i * a + v i * b))
      else edges nearest s q.

Definition norm (n : nat) (u : point) : R := sqrt (sqnorm n u).
(** include/Simplex_geom.hpp:71-82 *)
Definition visit (n : nat) (q : point) (limit : R) (nearest : near) (s : simplex) : near :=
  let b := bounding_ball n n s in
  if rle (norm n (fun i => center b i - q i) - sqrt (radius_sq b)) limit then merge_simplex n nearest s q else nearest.
Fixpoint recursive_nearest (n : nat) (q : point) (limit : R) (t : tree) (nearest : near) : near :=
  match t with
  | Node c misc children =>
      if rlt limit (norm n (fun i => q i - cube_center c i) - side c * sqrt (INR n) / 2) then nearest
      else fold_left (fun a k => recursive_nearest n q limit k a) children (fold_left (visit n q limit) misc nearest)
  end.
(** include/Simplex_geom.hpp:134-154; the outer [option] is fuel, the inner one the assertion *)
Fixpoint nearest_point (fuel n : nat) (huge : R) (t : tree) (q : point) (max_distance distance_guess : R) : option (option near) :=
  match fuel with
  | O => None
  | S fuel =>
      if rlt 0 distance_guess then
        let limit := Rmin max_distance distance_guess in
        let nearest := recursive_nearest n q limit t (no_point q limit) in
        if (empty nearest && rlt distance_guess max_distance)%bool then nearest_point fuel n huge t q max_distance (2 * distance_guess)
        else Some (Some (convert n huge nearest))
      else Some None
  end.

(** ** Intersections *)
(** include/Simplex_geom.hpp:86-103 *)
Definition crossing (n : nat) (solve : (nat -> point) -> point -> option point) (gap_tol : R) (p0 p1 : point) (s : simplex) : list R :=
  if intersects n (bounding_ball n n s) p0 p1 then
    let lhs := fun j => match j with O => fun i => - (p1 i - p0 i) | _ => fun i => s j i - s 0%nat i end in
    match solve lhs (fun i => p0 i - s 0%nat i) with
    | None => []
    | Some x => if (forallb (fun j => rle (- gap_tol) (x j)) (seq 1 (n - 1)) && rle (rsum (n - 1) (fun j => x (S j))) (1 + gap_tol))%bool then [x 0%nat] else []
    end
  else [].
(** include/Simplex_geom.hpp:84-106 *)
Fixpoint recursive_intersections (n : nat) (solve : (nat -> point) -> point -> option point) (gap_tol : R) (p0 p1 : point) (t : tree) (inters : list R) : list R :=
  match t with
  | Node c misc children =>
      if intersects n (mk_ball (cube_center c) (side c * INR n / 4)) p0 p1 then
        fold_left (fun a k => recursive_intersections n solve gap_tol p0 p1 k a) children (fold_left (fun a s => a ++ crossing n solve gap_tol p0 p1 s) misc inters)
      else inters
  end.
Definition intersections (n : nat) (solve : (nat -> point) -> point -> option point) (gap_tol : R) (t : tree) (p0 p1 : point) : list R :=
  recursive_intersections n solve gap_tol p0 p1 t [].
