(** The ICAO standard atmosphere: temperature gradients of the layers, ideal gas and hydrostatic balance. *)
From Coq Require Import Reals List Arith.
From Verif Require Outcome.
Import ListNotations.
Local Open Scope R_scope.

(** the part of the way from altitude [a] to [b] that lies below [h] *)
Definition passed (a b h : R) : R := Rmax 0 (Rmin h b - a).
(** temperature at geopotential altitude [h], in kelvin; the gradients are in kelvin per metre *)
Definition icao_temperature (h : R) : R :=
  288.15 + -0.0065 * passed 0 11000 h + 0.001 * passed 20000 32000 h + 0.0028 * passed 32000 47000 h + -0.0028 * passed 51000 71000 h + -0.002 * passed 71000 80000 h.
Definition gas_constant : R := 287.05287.
Definition gravity0 : R := 9.80665.
Definition sea_level_pressure : R := 101325.
Definition radius : R := 6356766.
(** gravity at geometric altitude [z], by the inverse square law *)
Definition gravity (z : R) : R := gravity0 * (radius / (radius + z))².

(** where the layers start *)
Definition bases : list R := [11000; 20000; 32000; 47000; 51000; 71000].
Definition tolerance : R := 1e-10.
(** altitudes of the standard that are not less than the tolerance of the code below the base of a layer *)
Definition regular (h : R) : Prop := 0 <= h <= 80000 /\ forall b, In b bases -> h <= b - tolerance \/ b <= h.
(** ... and neither at a base nor at an end *)
Definition inside_layer (h : R) : Prop := 0 < h < 80000 /\ forall b, In b bases -> h < b - tolerance \/ b < h.

(** the density and the pressure that [f] returns for all altitudes from [lo] to [hi] *)
Definition profile (f : R -> Outcome.outcome (R * R)) (lo hi : R) (dens pres : R -> R) : Prop := forall h, lo <= h <= hi -> f h = Outcome.Ok (dens h, pres h).
