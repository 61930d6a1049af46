(** Model of src/standard_atmosphere.cpp with the constants of include/constants.hpp. [double] is [R]; [std::exp] and [std::pow]
    (of a positive base) are [exp] and [Rpower]. *)
From Coq Require Import Reals List Arith.
From Verif Require Import Outcome.
Import ListNotations.
Local Open Scope R_scope.

(** include/constants.hpp:44, 45, 68, 88 *)
Definition specific_gas_air : R := 287.05287.
Definition earth_radius : R := 6356766.
Definition std_grav : R := 9.80665.
Definition atmosphere : R := 101325.

(** src/standard_atmosphere.cpp:8-17 *)
Definition alt_temp : list (R * R) := [(0, 288.15); (11000, 216.65); (20000, 216.65); (32000, 228.65); (47000, 270.65); (51000, 270.65); (71000, 214.65); (80000, 196.65)].
(** [alt_temp[i][0]] and [alt_temp[i][1]] *)
Definition row_alt (i : nat) : R := fst (nth i alt_temp (0, 0)).
Definition row_temp (i : nat) : R := snd (nth i alt_temp (0, 0)).
(** line 28 *)
Definition epsilon : R := 1e-10.

(** lines 31-41, the loop; [rest] is [alt_temp.size() - 1 - i_row]; returns [pres] and [temp] *)
Fixpoint layers (rest i_row : nat) (alt_geopot pres temp : R) : R * R :=
  match rest with
  | O => (pres, temp)
  | S rest =>
      if Rlt_dec (row_alt i_row - epsilon) alt_geopot then
        let base_temp := row_temp i_row in
        let lapse := (row_temp (i_row + 1) - base_temp) / (row_alt (i_row + 1) - row_alt i_row) in
        let h_diff := Rmin (row_alt (i_row + 1)) alt_geopot - row_alt i_row in
        let temp := base_temp + lapse * h_diff in
        let pres := pres * (if Rlt_dec (Rabs lapse) epsilon then exp (- std_grav * h_diff / specific_gas_air / base_temp)
                            else Rpower (temp / base_temp) (- std_grav / lapse / specific_gas_air)) in
        layers rest (i_row + 1) alt_geopot pres temp
      else (pres, temp)
  end.

(** lines 24-45; density and pressure *)
Definition standard_atmosphere_geopot (alt_geopot temp_offset : R) : outcome (R * R) :=
  if Rlt_dec (row_alt 0 - epsilon) alt_geopot then
    if Rlt_dec alt_geopot (row_alt (length alt_temp - 1) + epsilon) then
      let (pres, temp) := layers (length alt_temp - 1) 0 alt_geopot atmosphere 0 in
      let temp := temp + temp_offset in
      let dens := pres / specific_gas_air / temp in
      Ok (dens, pres)
    else Throw
  else Throw.

(** lines 19-22 *)
Definition standard_atmosphere (alt_geom temp_offset : R) : outcome (R * R) :=
  standard_atmosphere_geopot (earth_radius * alt_geom / (earth_radius + alt_geom)) temp_offset.
