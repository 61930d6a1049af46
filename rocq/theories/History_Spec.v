(** What it means that a monitor has recorded some of the samples, and extrema of a list of samples. *)
From Coq Require Import Reals ZArith List.
Import ListNotations.
Local Open Scope R_scope.

(** [thinned g l r]: the sequence [r] is obtained from [l] by skipping samples, and a sample is skipped only when its
    iteration number is below 1 or below [g] times that of the last sample recorded before it. The iteration numbers in
    [r] are strictly increasing. *)
Inductive thinned (g : R) : list (Z * R) -> list (Z * R) -> Prop :=
| thinned_nil : thinned g [] []
| thinned_first s : thinned g [s] [s]
| thinned_keep l r q s : thinned g l (r ++ [q]) -> (fst q < fst s)%Z -> thinned g (l ++ [s]) (r ++ [q; s])
| thinned_skip l r q s : thinned g l (r ++ [q]) -> IZR (fst s) < Rmax 1 (g * IZR (fst q)) ->
    thinned g (l ++ [s]) (r ++ [q]).

Definition is_minimum (x : R) (l : list (Z * R)) : Prop := In x (map snd l) /\ Forall (fun s => x <= snd s) l.
Definition is_maximum (x : R) (l : list (Z * R)) : Prop := In x (map snd l) /\ Forall (fun s => snd s <= x) l.
