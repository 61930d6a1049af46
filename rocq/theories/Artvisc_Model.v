(** Model of the computation of the artificial viscosity in one element: src/Solver.cpp:457-575 ([update_art_visc_smoothness]), 584-635
    ([update_art_visc_elwise], not based on a PDE) and 638-658 ([set_art_visc_admis]).

    Simplifications:
    - double is R with exact arithmetic; the logarithm of 0 is minus infinity;
    - [advect] and [diffuse] stand for the kernels between: any functions that compute the advected state and the forcing, and do not write
      the flow state;
    - [Gauss_lobatto(2).interpolate(nodes)] is the matrix of the two linear functions; the element data at the vertices are given, shared
      between elements as in Vertex_Model; hanging vertices are not matched. *)
From Coq Require Import Reals List Arith.
From Verif Require Import Outcome RSum Tensor_Model Smooth_Model.
Open Scope R_scope.

(** lines 593-599 *)
Definition elwise_ramp (center half_width : R) (u : option R) : R :=
  match u with
  | None => 0
  | Some u =>
    if Rlt_dec (center - half_width) u then
      if Rle_dec (center + half_width) u then 1
      else 1 / 2 * (1 + sin (PI * (u - center) / 2 / half_width))
    else 0
  end.
(** lines 589-600; [u] is the normalized nonsmoothness *)
Definition elwise_uncertainty (rs : nat) (width speed sound_speed u : R) : R :=
  let scale := width / (INR rs - 1) * (speed + sound_speed) in
  let log_u := if Rlt_dec 0 u then Some (2 * ln u / ln 10) else None in
  let center := -4 - 425 / 100 * ln (INR rs - 1) / ln 10 in
  elwise_ramp center (1 / 2) log_u * scale.
(** lines 626-633, 650-656 *)
Definition vertices_to_qpoints (nd rs : nat) (node vert_av : nat -> R) : outcome (nat -> R) :=
  let interp := mk_mat rs 2 (fun i j => if (j =? 0)%nat then 1 - node i else node i) in
  let! (_, qpoint_av) := hypercube_matvec (S nd) interp (2 ^ nd) vert_av in
  Ok qpoint_av.

Section Smoothness.
  Context (nd nq : nat).
  (** line 473 *)
  Definition speed_scale (state : nat -> R) (q : nat) : R := sqrt (2 * state (nd * nq + q)%nat * state ((nd + 1) * nq + q)%nat).
  (** lines 470-478 *)
  Definition set_velocity (state : nat -> R) (k : nat) : R := if (k <? nd * nq)%nat then state k / speed_scale state (k mod nq) else state k.
  (** lines 568-573 *)
  Definition put_back (state : nat -> R) (k : nat) : R := if (k <? nd * nq)%nat then state k * speed_scale state (k mod nq) else state k.
  (** lines 534-541 *)
  Definition forcing_of (rs : nat) (w orth adv state : nat -> R) (q : nat) : R :=
    let proj := rsum rs (fun i_proj => adv (i_proj * nq + q)%nat * w i_proj * orth i_proj) in
    proj * proj * 2 * state ((nd + 1) * nq + q)%nat / state (nd * nq + q)%nat.
  (** lines 564-567 *)
  Definition new_av (mult us_max forcing : R) : R := let f := mult * forcing in us_max * f / (us_max + f).
  (** lines 457-575: the viscosity and the state *)
  Definition update_smoothness (rs : nat) (w orth : nat -> R) (advect diffuse : (nat -> R) -> nat -> R) (mult us_max : R) (state : nat -> R) : (nat -> R) * (nat -> R) :=
    let state := set_velocity state in
    let adv := advect state in
    let forcing := diffuse (forcing_of rs w orth adv state) in
    (fun q => new_av mult us_max (forcing q), put_back state).
End Smoothness.
