(** Model of the Euler equations of include/pde.hpp: the convective flux, the characteristic speed and the decomposition of
    states into characteristics. A state is a function [nat -> R]: the momentum is at indices below the dimension [n], the
    mass (density) at [n] and the energy at [n + 1]. [double] is [R].

    Simplification: the QR factorisation of Eigen is a function [solve] of the matrix and the right-hand side. *)
From Coq Require Import Reals Arith.
From Verif Require Import RSum GeomPred_Model.
Local Open Scope R_scope.

(** include/pde.hpp:51 *)
Definition heat_rat : R := 14 / 10.
(** include/pde.hpp:97-104 *)
Definition kin_ener (n : nat) (s : nat -> R) : R := rsum n (fun i => s i * s i) * (/ 2 / s n).
Definition pressure (n : nat) (s : nat -> R) : R := (heat_rat - 1) * (s (n + 1)%nat - kin_ener n s).
(** include/pde.hpp:108-122, one column; [normal] is that column *)
Definition flux_conv (n : nat) (s normal : nat -> R) : nat -> R :=
  let mass_flux := rsum n (fun j => s j * normal j) in
  let vol_flux := mass_flux / s n in
  fun k => if (k <? n)%nat then s k * vol_flux + pressure n s * normal k
           else if (k =? n)%nat then mass_flux
           else (s (n + 1)%nat + pressure n s) * vol_flux.
(** include/pde.hpp:161-166 *)
Definition char_speed (n : nat) (s : nat -> R) : R :=
  sqrt (heat_rat * (heat_rat - 1) * s (n + 1)%nat / s n) + sqrt (sqnorm n s) / s n.

(** ** Characteristics: include/pde.hpp:182-256 *)
Record characteristics : Type := Chars { vals : nat -> R; vecs : nat -> nat -> R; dir : point; ch_mass : R; veloc : point }.
Definition nrml (n : nat) (ch : characteristics) (v : point) : R := dot n (dir ch) v.
Definition tang (n : nat) (ch : characteristics) (v : point) : point := fun i => v i - dir ch i * nrml n ch v.
(** include/pde.hpp:201-227; [vecs ch i j] is row [i] of column [j] *)
Definition make_chars (n : nat) (s direction : nat -> R) : characteristics :=
  let dir := fun i => direction i / sqrt (sqnorm n direction) in
  let mass := s n in
  let veloc := fun i => s i / mass in
  let vsq := sqnorm n veloc in
  let pres := 4 / 10 * (s (n + 1)%nat - / 2 * mass * vsq) in
  let sound_speed := sqrt (14 / 10 * Rmax pres 0 / mass) in
  let nv := dot n dir veloc in
  let vals := fun j => match j with 0%nat => nv - sound_speed | 1%nat => nv + sound_speed | _ => nv end in
  let d_mass := 1 in
  let vecs := fun i j =>
    match j with
    | 0%nat | 1%nat =>
        let d_veloc := (2 * INR j - 1) * sound_speed / mass * d_mass in
        let d_pres := 14 / 10 * pres / mass * d_mass in
        match i with 0%nat => d_mass * nv + mass * d_veloc | 1%nat => d_mass | _ => d_pres / (4 / 10) + / 2 * d_mass * vsq + mass * nv * d_veloc end
    | _ => match i with 0%nat => d_mass * nv | 1%nat => d_mass | _ => / 2 * d_mass * vsq end
    end in
  Chars vals vecs dir mass veloc.
(** include/pde.hpp:234-255; the result has a row for each variable and three columns *)
Definition decomp (n : nat) (solve : (nat -> nat -> R) -> (nat -> R) -> nat -> R) (ch : characteristics) (s : nat -> R) : nat -> nat -> R :=
  let mmtm_correction := fun i => tang n ch s i - s n * tang n ch (veloc ch) i in
  let state_1d := fun i => match i with 0%nat => nrml n ch s | 1%nat => s n | _ => s (n + 1)%nat - dot n (veloc ch) mmtm_correction end in
  let eig_basis := solve (vecs ch) state_1d in
  let eig_decomp := fun i j => vecs ch i j * eig_basis j in
  fun k j =>
    if (k <? n)%nat then dir ch k * eig_decomp 0%nat j + tang n ch (veloc ch) k * eig_basis j + (if (j =? 2)%nat then mmtm_correction k else 0)
    else if (k =? n)%nat then eig_decomp 1%nat j
    else eig_decomp 2%nat j + (if (j =? 2)%nat then dot n (veloc ch) mmtm_correction else 0).
