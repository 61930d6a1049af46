(** Model of the kernels of include/Spatial.hpp: [Write_face], [Face_permutation], [Prolong_refined], [Restrict_refined],
    [Local], [Reconcile_ldg_flux], [Neighbor], [Neighbor_reconcile]; and of the order in which src/kernels_convective.cpp and
    src/kernels_diffusive.cpp call them.

    [double] is [R]. Arrays are functions from the flat index to the value: that the kernels stay inside the arrays is the
    subject of C15 (rows) and C18 (permutations), not of this file. Data that a kernel reads through distinct pointers is held
    in distinct arrays: every face has a number, under which [st] holds its extrapolated state and [ldg] its LDG data
    ([Kernel_connection::state(i_side, is_ldg)], [Kernel_element::face(i_face, is_ldg)]). The loops over elements, connections
    and refined faces run in order; in the source they run in parallel. *)
From Coq Require Import Reals List Arith ZArith.
From Verif Require Import Outcome RSum Row_Model Connection_Model Quad_Model.
Import ListNotations.
Local Open Scope R_scope.

Definition arr := nat -> R.
Definition put (a : arr) (k : nat) (x : R) : arr := fun i => if (i =? k)%nat then x else a i.
Definition fput {A} (f : nat -> A) (k : nat) (x : A) : nat -> A := fun i => if (i =? k)%nat then x else f i.
Definition loop {S} (n : nat) (body : nat -> S -> S) (s : S) : S := fold_left (fun s i => body i s) (seq 0 n) s.

(** the loop [for (Row_index ind(n_dim, row_size, i_dim); ind; ++ind)]; see [row_loop] *)
Definition rows_of (nd rs id : nat) : list row_index := match row_loop (S (rs ^ (nd - 1))) (row_begin nd rs id) with Ok l => l | _ => [] end.
Definition for_rows {S} (nd rs id : nat) (body : row_index -> S -> S) (s : S) : S := fold_left (fun s ind => body ind s) (rows_of nd rs id) s.

(** include/Row_rw.hpp:30-72 on these arrays; matrices are indexed [row][variable] as in the source *)
Definition get_row (data : arr) (ind : row_index) : nat -> nat -> R := fun i_row i_var => data (i_var * ri_n_qpoint ind + i_qpoint ind i_row)%nat.
Definition put_row (n_var rs : nat) (w : nat -> nat -> R) (data : arr) (ind : row_index) (coef : R) : arr :=
  loop n_var (fun i_var => loop rs (fun i_row data => let k := (i_var * ri_n_qpoint ind + i_qpoint ind i_row)%nat in put data k (coef * data k + w i_row i_var))) data.
Definition get_bound (faces : nat -> arr) (ind : row_index) : nat -> nat -> R :=
  fun is_positive i_var => faces (ri_i_dim ind * 2 + is_positive)%nat (i_var * ri_n_fqpoint ind + i_face_qpoint ind)%nat.
Definition put_bound (n_var : nat) (b : nat -> nat -> R) (faces : nat -> arr) (ind : row_index) : nat -> arr :=
  loop n_var (fun i_var => loop 2 (fun is_positive faces =>
    let f := (ri_i_dim ind * 2 + is_positive)%nat in fput faces f (put (faces f) (i_var * ri_n_fqpoint ind + i_face_qpoint ind)%nat (b is_positive i_var)))) faces.

(** [matrix * row], one column for each variable *)
Definition mat_mul (cols : nat) (m : nat -> nat -> R) (r : nat -> nat -> R) (i v : nat) : R := mat_vec cols m (fun j => r j v) i.

(** what the kernels get of a [Basis] *)
Record basis := { b_diff : nat -> nat -> R; b_boundary : nat -> nat -> R; b_weight : nat -> R; b_filter : nat -> nat -> R;
                  b_prolong : nat -> nat -> nat -> R; b_restrict : nat -> nat -> nat -> R; b_step_ratio : R }.
(** [Derivative] of include/Derivative.hpp applied to the columns of a matrix; [derivative], [boundary_term] are in Quad_Model *)
Definition d_both (rs : nat) (b : basis) (row ends : nat -> nat -> R) (i v : nat) : R := derivative rs (b_diff b) (b_boundary b) (b_weight b) (fun j => row j v) (fun s => ends s v) i.
Definition d_interior (rs : nat) (b : basis) (row : nat -> nat -> R) (i v : nat) : R := derivative_interior rs (b_diff b) (fun j => row j v) i.
Definition d_boundary (b : basis) (ends : nat -> nat -> R) (i v : nat) : R := boundary_term (b_boundary b) (b_weight b) (fun s => ends s v) i.

(** what the kernels get of a PDE (include/pde.hpp). A [Computation] is created for every point and given the state, the normals
    and the gradient there, so the fluxes and the source are functions of these: normal [j_dim] [i_dim], gradient [i_var] [i_dim],
    results [i_var] [i_dim]. [char_speed] and [flux_conv] of a face computation use one normal. *)
Record pde := {
  n_update : nat; n_extrap : nat; has_convection : bool; has_diffusion : bool; has_source : bool;
  fetch_extrap : (nat -> R) -> nat -> R;
  flux_conv : (nat -> R) -> (nat -> nat -> R) -> nat -> nat -> R;
  flux_diff : (nat -> R) -> (nat -> nat -> R) -> (nat -> nat -> R) -> nat -> nat -> R;
  source : (nat -> R) -> nat -> R;
  face_flux : (nat -> R) -> (nat -> R) -> nat -> R;
  face_update_state : (nat -> R) -> nat -> R;
  face_char_speed : (nat -> R) -> (nat -> R) -> R;
  write_update : (nat -> R) -> bool -> (nat -> R) -> nat -> R }.
(** the variables at one point: [data + i_qpoint] with stride [n_point] *)
Definition at_point (n_point : nat) (data : arr) (i_point : nat) : nat -> R := fun v => data (v * n_point + i_point)%nat.
(** [write_update] of include/pde.hpp:66-69 (Navier-Stokes) and 455-458 (Fix_therm_admis) *)
Definition add_update (n_update : nat) (update : nat -> R) (critical : bool) (data : nat -> R) (v : nat) : R := if (v <? n_update)%nat then data v + update v else data v.
(** the whole array after [write_update(update, n_point, data + i_point, critical)] *)
Definition write_point (n_point i_point : nat) (f : (nat -> R) -> nat -> R) (data : arr) : arr :=
  fun k => if (k mod n_point =? i_point)%nat then f (at_point n_point data i_point) (k / n_point)%nat else data k.

(** ** Spatial.hpp:41-57: [Write_face::operator()] on one element. [extrap] is uninitialised in the source and filled first *)
Definition write_face (nd rs : nat) (eq : pde) (b : basis) (read : arr) (faces : nat -> arr) : nat -> arr :=
  let n_qpoint := (rs ^ nd)%nat in
  let extrap := loop n_qpoint (fun q => loop (n_extrap eq) (fun v e => put e (v * n_qpoint + q)%nat (fetch_extrap eq (at_point n_qpoint read q) v))) (fun _ => 0) in
  loop nd (fun i_dim => for_rows nd rs i_dim (fun ind faces => put_bound (n_extrap eq) (mat_mul rs (b_boundary b) (get_row extrap ind)) faces ind)) faces.

(** ** Spatial.hpp:73-131: [Face_permutation]. [pi_transpose], [pi_colwise] and [pi_rowwise] are in Connection_Model *)
Definition permute (n_var n_point : nat) (pi : nat -> nat) (a : arr) : arr := fun k => if (k <? n_var * n_point)%nat then a (k / n_point * n_point + pi (k mod n_point))%nat else a k.
(** lines 85-95 *)
Definition fp_transpose (nd rs n_var : nat) (d : direction) (a : arr) : arr :=
  if transpose d then if (nd =? 3)%nat then permute n_var (rs ^ (nd - 1)) (pi_transpose rs) a else a else a.
(** lines 101-118; in 2D the matrix has one column for each variable *)
Definition fp_flip (nd rs n_var : nat) (d : direction) (a : arr) : arr :=
  if flip_tangential d then
    if (nd =? 3)%nat then
      let colwise := xorb (Z.of_nat (dim0 d) >? 3 - Z.of_nat (dim0 d) - Z.of_nat (dim1 d))%Z (transpose d) in
      permute n_var (rs ^ (nd - 1)) (if colwise then pi_colwise rs else pi_rowwise rs rs) a
    else if (nd =? 2)%nat then permute n_var (rs ^ (nd - 1)) (pi_colwise rs) a
    else a
  else a.
(** lines 128-129 *)
Definition fp_match (nd rs n_var : nat) (d : direction) (a : arr) : arr := fp_flip nd rs n_var d (fp_transpose nd rs n_var d a).
Definition fp_restore (nd rs n_var : nat) (d : direction) (a : arr) : arr := fp_transpose nd rs n_var d (fp_flip nd rs n_var d a).

(** ** Spatial.hpp:139-286: [Prolong_refined] and [Restrict_refined], for one refined face. [str] is [ref_face.stretch] *)
Definition n_fine (nd : nat) (str : nat -> bool) : nat := loop (nd - 1) (fun i nf => nf / (1 + Nat.b2n (str i)))%nat (2 ^ (nd - 1))%nat.
(** the loops over [i_outer] and [i_inner], lines 187-198 and 263-274; [m] is the matrix of one half *)
Definition face_rows (nd rs : nat) (qpoint_stride : nat) (m : nat -> nat -> R) (a : arr) : arr :=
  let nfq := (rs ^ (nd - 1))%nat in
  loop (nfq / (rs * qpoint_stride)) (fun i_outer => loop qpoint_stride (fun i_inner a =>
    let row := fun i => a ((i_outer * rs + i) * qpoint_stride + i_inner)%nat in
    loop rs (fun i a => put a ((i_outer * rs + i) * qpoint_stride + i_inner)%nat (mat_vec rs m row i)) a)) a.
(** lines 183-186 and 259-262 *)
Definition half_of (nd : nat) (str : nat -> bool) (i_face i_dim : nat) : nat :=
  let face_stride := if str (nd - 2)%nat then 1%nat else (2 ^ (nd - 2 - i_dim))%nat in ((i_face / face_stride) mod 2)%nat.
(** lines 178-201 and 251-277, in place on the values of one variable; [by] says how stretched dimensions scale *)
Definition face_dims (nd rs : nat) (str : nat -> bool) (by_ : R -> R) (mats : nat -> nat -> nat -> R) (i_face : nat) (a : arr) : arr :=
  loop (nd - 1) (fun i_dim a => if str i_dim then fun q => by_ (a q) else face_rows nd rs (rs ^ (nd - 2 - i_dim)) (mats (half_of nd str i_face i_dim)) a) a.
(** the values of variable [v], and writing them back *)
Definition var_of (nfq v : nat) (a : arr) : arr := fun q => a (v * nfq + q)%nat.
Definition put_var (nfq v : nat) (x : arr) (a : arr) : arr := fun k => if (k / nfq =? v)%nat then x (k mod nfq)%nat else a k.
(** lines 162-203; [fine] maps the number of the mortar face to its number among all faces *)
Definition prolong_refined (nd rs n_var : nat) (b : basis) (scl : bool) (coarse : nat) (fine : nat -> nat) (str : nat -> bool) (st : nat -> arr) : nat -> arr :=
  let nfq := (rs ^ (nd - 1))%nat in
  loop (n_fine nd str) (fun i_face => loop n_var (fun v st =>
    fput st (fine i_face) (put_var nfq v (face_dims nd rs str (fun x => x * (1 + INR (Nat.b2n scl))) (b_prolong b) i_face (var_of nfq v (st coarse))) (st (fine i_face))))) st.
(** lines 239-281 *)
Definition restrict_refined (nd rs n_var : nat) (b : basis) (scl : bool) (coarse : nat) (fine : nat -> nat) (str : nat -> bool) (st : nat -> arr) : nat -> arr :=
  let nfq := (rs ^ (nd - 1))%nat in
  let st := fput st coarse (fun k => if (k <? n_var * nfq)%nat then 0 else st coarse k) in
  loop (n_fine nd str) (fun i_face => loop n_var (fun v st =>
    let st := fput st (fine i_face) (put_var nfq v (face_dims nd rs str (fun x => x / (1 + INR (Nat.b2n scl))) (b_restrict b) i_face (var_of nfq v (st (fine i_face)))) (st (fine i_face))) in
    fput st coarse (loop nfq (fun q c => put c (v * nfq + q)%nat (c (v * nfq + q)%nat + st (fine i_face) (v * nfq + q)%nat)) (st coarse)))) st.

(** ** Spatial.hpp:294-509: [Local] for one element *)
Record elem := { e_face : nat -> nat; e_tss : arr; e_size : R; e_deformed : bool; e_det : arr; e_nrml : arr; e_face_nrml : nat -> option arr }.
(** lines 331-339 and 364-367: a missing face normal is replaced by the unit normal *)
Definition face_normal (nd rs : nat) (e : elem) (i_face : nat) : arr :=
  match e_face_nrml e i_face with
  | Some a => a
  | None => fun k => if (i_face / 2 =? k / (rs ^ nd / rs))%nat then 1 else 0
  end.
(** the variables of [time_rate[0]], line 352 *)
Definition rate_vars (eq : pde) : nat := Nat.max (n_update eq) (n_extrap eq - n_extrap eq / 2).
(** lines 371-402: the gradient times the determinant, [visc_storage[i_dim][i_var][i_qpoint]] *)
Definition local_gradient (nd rs : nat) (eq : pde) (b : basis) (e : elem) (state : arr) (visc_faces : nat -> arr) : nat -> arr :=
  let n_qpoint := (rs ^ nd)%nat in
  let vars := loop n_qpoint (fun q => loop (n_extrap eq) (fun v t => put t (v * n_qpoint + q)%nat (fetch_extrap eq (at_point n_qpoint state q) v))) (fun _ => 0) in
  loop nd (fun i_dim => for_rows nd rs i_dim (fun ind g =>
    let row_r := get_row vars ind in
    let face_state := get_bound visc_faces ind in
    if e_deformed e then
      let row_n := get_row (fun k => e_nrml e (i_dim * nd * n_qpoint + k)%nat) ind in
      let face_n := get_bound (face_normal nd rs e) ind in
      loop nd (fun j_dim => loop (n_extrap eq) (fun i_var g =>
        let row := fun i (_ : nat) => row_n i j_dim * row_r i i_var in
        let bound := fun s (_ : nat) => face_n s j_dim * face_state s i_var in
        fput g j_dim (fun k => if ((i_var * n_qpoint <=? k) && (k <? i_var * n_qpoint + n_qpoint))%nat%bool
          then put_row 1 rs (fun i v => d_both rs b row bound i v / e_size e) (fun q => g j_dim (i_var * n_qpoint + q)%nat) ind 1 (k - i_var * n_qpoint)%nat else g j_dim k))) g
    else fput g i_dim (put_row (n_extrap eq) rs (fun i v => d_both rs b row_r face_state i v / e_size e) (g i_dim) ind 0))) (fun _ _ => 0).
(** lines 405-435 *)
Definition local_normal (nd rs : nat) (e : elem) (q : nat) (j_dim i_dim : nat) : R :=
  if e_deformed e then e_nrml e ((i_dim * nd + j_dim) * rs ^ nd + q)%nat else if (i_dim =? j_dim)%nat then 1 else 0.
Definition local_flux (nd rs : nat) (eq : pde) (e : elem) (state : arr) (i_dim : nat) : arr := fun k =>
  let n_qpoint := (rs ^ nd)%nat in let q := (k mod n_qpoint)%nat in let v := (k / n_qpoint)%nat in
  flux_conv eq (at_point n_qpoint state q) (local_normal nd rs e q) v i_dim.
Definition local_visc_flux (nd rs : nat) (eq : pde) (e : elem) (state : arr) (grad : nat -> arr) (i_dim : nat) : arr := fun k =>
  let n_qpoint := (rs ^ nd)%nat in let q := (k mod n_qpoint)%nat in let v := (k / n_qpoint)%nat in
  let g := fun i_var j_dim => grad j_dim (i_var * n_qpoint + q)%nat / (if e_deformed e then e_det e q else 1) in
  if (v <? n_update eq)%nat then flux_diff eq (at_point n_qpoint state q) (local_normal nd rs e q) g v i_dim else grad i_dim k.
(** lines 436-441: what [compute_source] puts in [time_rate[1]] *)
Definition local_source (nd rs : nat) (eq : pde) (e : elem) (state : arr) (stage : bool) (rate : arr) : arr :=
  let n_qpoint := (rs ^ nd)%nat in
  if (has_source eq && negb stage)%bool then
    loop n_qpoint (fun q => loop (n_update eq) (fun v r => put r ((rate_vars eq + v) * n_qpoint + q)%nat (e_size e * (if e_deformed e then e_det e q else 1) * source eq (at_point n_qpoint state q) v))) rate
  else rate.
(** one [write_row] into [time_rate[1]], whose first entry is at [rate_vars*n_qpoint] *)
Definition at_offset (off : nat) (f : arr -> arr) (a : arr) : arr := fun k => if (k <? off)%nat then a k else f (fun i => a (off + i)%nat) (k - off)%nat.
(** lines 445-470: time rate and the LDG face data *)
Definition local_residual (nd rs : nat) (eq : pde) (b : basis) (flux visc_flux : nat -> arr) (faces : nat -> arr) (s : arr * (nat -> arr)) : arr * (nat -> arr) :=
  let n_qpoint := (rs ^ nd)%nat in
  loop nd (fun i_dim => for_rows nd rs i_dim (fun ind '(rate, visc_faces) =>
    let rate := if has_convection eq then put_row (n_update eq) rs (fun i v => - d_both rs b (get_row (flux i_dim) ind) (get_bound faces ind) i v) rate ind 1 else rate in
    if has_diffusion eq then
      let row_f := get_row (visc_flux i_dim) ind in
      let face_f := mat_mul rs (b_boundary b) row_f in
      (at_offset (rate_vars eq * n_qpoint) (fun r => put_row (n_update eq) rs (fun i v => - d_interior rs b row_f i v) r ind 1) rate, put_bound (n_update eq) face_f visc_faces ind)
    else (rate, visc_faces))) s.
(** lines 473-481 and, with [n_var = n_update], 568-576 *)
Definition apply_filter (nd rs n_var : nat) (b : basis) (rate : arr) : arr :=
  loop nd (fun i_dim => for_rows nd rs i_dim (fun ind rate => put_row n_var rs (mat_mul rs (b_filter b) (get_row rate ind)) rate ind 0)) rate.
(** lines 484-503: state and residual cache *)
Definition local_write (nd rs : nat) (eq : pde) (e : elem) (update : R) (stage compute_residual : bool) (rate : arr) (s : arr * arr) : arr * arr :=
  let n_qpoint := (rs ^ nd)%nat in
  loop n_qpoint (fun q '(state, ref_state) =>
    let mult := update * e_tss e q / e_size e in
    let mult := if e_deformed e then mult / e_det e q else mult in
    let '(upd, ref_state) := loop (n_update eq) (fun v '(upd, ref_state) =>
      let k := (v * n_qpoint + q)%nat in
      let u := rate k in
      let '(u, ref_state) :=
        if stage then (u - ref_state k, ref_state)
        else (if (has_diffusion eq || has_source eq)%bool then u + rate ((rate_vars eq + v) * n_qpoint + q)%nat else u,
              if has_convection eq then put ref_state k u else ref_state) in
      let u := u * mult in
      if compute_residual then (upd, put ref_state k u) else (put upd v u, ref_state)) ((fun _ => 0) : arr, ref_state) in
    (write_point n_qpoint q (write_update eq upd (negb (has_diffusion eq) && negb stage)%bool) state, ref_state)) s.
(** The kernel on one element: state, residual cache, and the faces of the element. Lines 317-323 refuse some combinations
    ([HEXED_ASSERT]); [dt] is multiplied with the step ratio in the second stage. *)
Definition local_allowed (eq : pde) (stage compute_residual : bool) : bool := (negb (has_diffusion eq && stage) && negb (stage && compute_residual))%bool.
Definition local (nd rs : nat) (eq : pde) (b : basis) (dt : R) (stage compute_residual use_filter : bool) (e : elem)
    (state ref_state : arr) (faces visc_faces : nat -> arr) : (arr * arr) * ((nat -> arr) * (nat -> arr)) :=
  let update := if stage then dt * b_step_ratio b else dt in
  let grad := if has_diffusion eq then local_gradient nd rs eq b e state visc_faces else fun _ _ => 0 in
  let rate := if has_diffusion eq then
      (fun k => if (k <? 2 * n_update eq * rs ^ nd)%nat then 0 else
        loop (rs ^ nd) (fun q => loop (n_extrap eq) (fun v t => put t (v * rs ^ nd + q)%nat (fetch_extrap eq (at_point (rs ^ nd) state q) v))) (fun _ => 0) k)
    else fun _ => 0 in
  let rate := local_source nd rs eq e state stage rate in
  let '(rate, visc_faces) := local_residual nd rs eq b (local_flux nd rs eq e state) (local_visc_flux nd rs eq e state grad) faces (rate, visc_faces) in
  let rate := if use_filter then apply_filter nd rs (2 * n_update eq) b rate else rate in
  let '(state, ref_state) := local_write nd rs eq e update stage compute_residual rate (state, ref_state) in
  ((state, ref_state), (if has_diffusion eq then faces else write_face nd rs eq b state faces, visc_faces)).

(** ** Spatial.hpp:514-594: [Reconcile_ldg_flux] for one element *)
Definition reconcile (nd rs : nat) (eq : pde) (b : basis) (dt : R) (compute_residual use_filter : bool) (e : elem)
    (state ref_state : arr) (faces visc_faces : nat -> arr) : (arr * arr) * (nat -> arr) :=
  let n_qpoint := (rs ^ nd)%nat in
  let rate := loop nd (fun i_dim => for_rows nd rs i_dim (fun ind rate => put_row (n_update eq) rs (fun i v => - d_boundary b (get_bound visc_faces ind) i v) rate ind 1)) (fun _ => 0) in
  let rate := if use_filter then apply_filter nd rs (n_update eq) b rate else rate in
  let to_update := loop n_qpoint (fun q data =>
    let mult := dt * e_tss e q / e_size e in
    let mult := if e_deformed e then mult / e_det e q else mult in
    write_point n_qpoint q (write_update eq (fun v => rate (v * n_qpoint + q)%nat * mult) true) data) (if compute_residual then ref_state else state) in
  let state' := if compute_residual then state else to_update in
  ((state', if compute_residual then to_update else ref_state), write_face nd rs eq b state' faces).

(** ** Spatial.hpp:602-704 and 710-759: [Neighbor] and [Neighbor_reconcile] for one connection *)
Record con := { c_face : bool -> nat; c_deformed : bool; c_dir : direction; c_normal : arr }.
(** lines 625 and 636, 724 and 735: [sign] *)
Definition side_sign (c : con) (side : bool) : R := if c_deformed c then if flip_normal (c_dir c) side then -1 else 1 else 1.
(** lines 657-661: [comp[0].normal] *)
Definition con_normal (nd nfq : nat) (c : con) (q i_dim : nat) : R :=
  if c_deformed c then side_sign c false * c_normal c (i_dim * nfq + q)%nat else if (i_dim =? dim0 (c_dir c))%nat then 1 else 0.
Definition norm (n : nat) (x : nat -> R) : R := sqrt (rsum n (fun i => x i ^ 2)).
(** lines 667-674 *)
Definition numerical_flux (nd : nat) (eq : pde) (normal state0 state1 : nat -> R) (v : nat) : R :=
  1 / 2 * (face_flux eq state0 normal v + face_flux eq state1 normal v
    + Rmax (face_char_speed eq state0 normal) (face_char_speed eq state1 normal) * norm nd normal * (face_update_state eq state0 v - face_update_state eq state1 v)).
Definition neighbor (nd rs : nat) (eq : pde) (c : con) (s : (nat -> arr) * (nat -> arr)) : (nat -> arr) * (nat -> arr) :=
  let '(st, ldg) := s in
  let nfq := (rs ^ (nd - 1))%nat in
  let d := c_dir c in
  let take (a : arr) : arr := fun k => if (k <? n_extrap eq * nfq)%nat then a k else 0 in
  let face0 := take (st (c_face c false)) in
  let face1 := take (st (c_face c true)) in
  let face1 := if c_deformed c then fp_match nd rs (n_extrap eq) d face1 else face1 in
  let zero : arr := fun _ => 0 in
  let '(face0, face1, avg0, avg1) := loop nfq (fun q '(face0, face1, avg0, avg1) =>
    let '(avg0, avg1) := if has_diffusion eq then
        loop (n_extrap eq) (fun v '(avg0, avg1) => let k := (v * nfq + q)%nat in let avg := 1 / 2 * (face0 k + face1 k) in (put avg0 k avg, put avg1 k avg)) (avg0, avg1)
      else (avg0, avg1) in
    let '(face0, face1) := if has_convection eq then
        let flux := numerical_flux nd eq (con_normal nd nfq c q) (at_point nfq face0 q) (at_point nfq face1 q) in
        loop (n_update eq) (fun v '(face0, face1) => let k := (v * nfq + q)%nat in (put face0 k (side_sign c false * flux v), put face1 k (side_sign c true * flux v))) (face0, face1)
      else (face0, face1) in
    (face0, face1, avg0, avg1)) (face0, face1, zero, zero) in
  let face1 := if c_deformed c then fp_restore nd rs (n_extrap eq) d face1 else face1 in
  let avg1 := if c_deformed c then fp_restore nd rs (n_extrap eq) d avg1 else avg1 in
  let write (n : nat) (x old : arr) : arr := fun k => if (k <? n * nfq)%nat then x k else old k in
  let st := if has_convection eq then let st := fput st (c_face c false) (write (n_update eq) face0 (st (c_face c false))) in fput st (c_face c true) (write (n_update eq) face1 (st (c_face c true))) else st in
  let ldg := if has_diffusion eq then let ldg := fput ldg (c_face c false) (write (n_extrap eq) avg0 (ldg (c_face c false))) in fput ldg (c_face c true) (write (n_extrap eq) avg1 (ldg (c_face c true))) else ldg in
  (st, ldg).
(** the temporary [face] is uninitialised beyond [n_update] variables; the permutation moves those entries, which are not written back *)
Definition neighbor_reconcile (nd rs : nat) (eq : pde) (junk : arr) (c : con) (ldg : nat -> arr) : nat -> arr :=
  let nfq := (rs ^ (nd - 1))%nat in
  let d := c_dir c in
  let take (a : arr) : arr := fun k => if (k <? n_update eq * nfq)%nat then a k else junk k in
  let face0 := take (ldg (c_face c false)) in
  let face1 := take (ldg (c_face c true)) in
  let face1 := if c_deformed c then fp_match nd rs (n_extrap eq) d face1 else face1 in
  let '(face0, face1) := loop nfq (fun q => loop (n_update eq) (fun v '(face0, face1) =>
    let k := (v * nfq + q)%nat in
    let avg := 0 + 1 / 2 * side_sign c false * face0 k + 1 / 2 * side_sign c true * face1 k in
    (put face0 k (side_sign c false * avg - face0 k), put face1 k (side_sign c true * avg - face1 k)))) (face0, face1) in
  let face1 := if c_deformed c then fp_restore nd rs (n_extrap eq) d face1 else face1 in
  let write (x old : arr) : arr := fun k => if (k <? n_update eq * nfq)%nat then x k else old k in
  let ldg := fput ldg (c_face c false) (write face0 (ldg (c_face c false))) in
  fput ldg (c_face c true) (write face1 (ldg (c_face c true))).

(** ** A mesh as the kernels see it, include/Kernel_mesh.hpp *)
Record refined_face := { r_coarse : nat; r_fine : nat -> nat; r_stretch : nat -> bool }.
Record mesh := { m_dim : nat; m_row_size : nat; m_basis : basis; car_cons : list con; def_cons : list con; car_elems : list nat; def_elems : list nat; m_elem : nat -> elem; ref_faces : list refined_face }.
(** the data: face states, LDG face data, and of every element the state and the residual cache *)
Record data := { d_st : nat -> arr; d_ldg : nat -> arr; d_state : nat -> arr; d_ref : nat -> arr }.
Definition run_neighbor (m : mesh) (eq : pde) (l : list con) (x : data) : data :=
  let '(st, ldg) := fold_left (fun s c => neighbor (m_dim m) (m_row_size m) eq c s) l (d_st x, d_ldg x) in {| d_st := st; d_ldg := ldg; d_state := d_state x; d_ref := d_ref x |}.
Definition run_neighbor_reconcile (m : mesh) (eq : pde) (junk : arr) (l : list con) (x : data) : data :=
  {| d_st := d_st x; d_ldg := fold_left (fun s c => neighbor_reconcile (m_dim m) (m_row_size m) eq junk c s) l (d_ldg x); d_state := d_state x; d_ref := d_ref x |}.
(** [offset] selects the LDG data: [off*(n_dim + 2)*nfq] *)
Definition run_restrict (m : mesh) (eq : pde) (scl offset : bool) (x : data) : data :=
  let f := fold_left (fun s r => restrict_refined (m_dim m) (m_row_size m) (n_extrap eq) (m_basis m) scl (r_coarse r) (r_fine r) (r_stretch r) s) (ref_faces m) in
  if offset then {| d_st := d_st x; d_ldg := f (d_ldg x); d_state := d_state x; d_ref := d_ref x |} else {| d_st := f (d_st x); d_ldg := d_ldg x; d_state := d_state x; d_ref := d_ref x |}.
Definition run_prolong (m : mesh) (eq : pde) (scl offset : bool) (x : data) : data :=
  let f := fold_left (fun s r => prolong_refined (m_dim m) (m_row_size m) (n_extrap eq) (m_basis m) scl (r_coarse r) (r_fine r) (r_stretch r) s) (ref_faces m) in
  if offset then {| d_st := d_st x; d_ldg := f (d_ldg x); d_state := d_state x; d_ref := d_ref x |} else {| d_st := f (d_st x); d_ldg := d_ldg x; d_state := d_state x; d_ref := d_ref x |}.
(** the faces of an element, gathered and written back *)
Definition gather (e : elem) (s : nat -> arr) : nat -> arr := fun i => s (e_face e i).
Definition scatter (nd : nat) (e : elem) (faces : nat -> arr) (s : nat -> arr) : nat -> arr := loop (2 * nd) (fun i s => fput s (e_face e i) (faces i)) s.
Definition run_local (m : mesh) (eq : pde) (dt : R) (stage compute_residual use_filter : bool) (l : list nat) (x : data) : data :=
  fold_left (fun x i => let e := m_elem m i in
    let '((state, ref), (faces, visc_faces)) := local (m_dim m) (m_row_size m) eq (m_basis m) dt stage compute_residual use_filter e (d_state x i) (d_ref x i) (gather e (d_st x)) (gather e (d_ldg x)) in
    {| d_st := scatter (m_dim m) e faces (d_st x); d_ldg := scatter (m_dim m) e visc_faces (d_ldg x); d_state := fput (d_state x) i state; d_ref := fput (d_ref x) i ref |}) l x.
Definition run_reconcile (m : mesh) (eq : pde) (dt : R) (compute_residual use_filter : bool) (l : list nat) (x : data) : data :=
  fold_left (fun x i => let e := m_elem m i in
    let '((state, ref), faces) := reconcile (m_dim m) (m_row_size m) eq (m_basis m) dt compute_residual use_filter e (d_state x i) (d_ref x i) (gather e (d_st x)) (gather e (d_ldg x)) in
    {| d_st := scatter (m_dim m) e faces (d_st x); d_ldg := d_ldg x; d_state := fput (d_state x) i state; d_ref := fput (d_ref x) i ref |}) l x.
(** src/kernels_convective.cpp:8-16 *)
Definition compute_convection (m : mesh) (eq : pde) (dt : R) (stage compute_residual use_filter : bool) (x : data) : data :=
  let x := run_neighbor m eq (car_cons m) x in
  let x := run_neighbor m eq (def_cons m) x in
  let x := run_restrict m eq true false x in
  let x := run_local m eq dt stage compute_residual use_filter (car_elems m) x in
  let x := run_local m eq dt stage compute_residual use_filter (def_elems m) x in
  run_prolong m eq false false x.
(** src/kernels_diffusive.cpp:8-26, until [flux_bc] and from there; [flux_bc] writes the LDG data of ghost faces. [Local] refuses
    [i_stage] other than 0 here, see [local_allowed]. *)
Definition diffusion_first (m : mesh) (eq : pde) (dt : R) (compute_residual use_filter : bool) (x : data) : data :=
  let x := run_neighbor m eq (car_cons m) x in
  let x := run_neighbor m eq (def_cons m) x in
  let x := run_restrict m eq true false x in
  let x := run_restrict m eq false true x in
  let x := run_local m eq dt false compute_residual use_filter (car_elems m) x in
  let x := run_local m eq dt false compute_residual use_filter (def_elems m) x in
  run_prolong m eq true true x.
Definition diffusion_second (m : mesh) (eq : pde) (dt : R) (compute_residual use_filter : bool) (junk : arr) (x : data) : data :=
  let x := run_neighbor_reconcile m eq junk (car_cons m) x in
  let x := run_neighbor_reconcile m eq junk (def_cons m) x in
  let x := run_restrict m eq true true x in
  let x := run_reconcile m eq dt compute_residual use_filter (car_elems m) x in
  let x := run_reconcile m eq dt compute_residual use_filter (def_elems m) x in
  run_prolong m eq false false x.
Definition compute_diffusion (m : mesh) (eq : pde) (dt : R) (compute_residual use_filter : bool) (flux_bc : (nat -> arr) -> nat -> arr) (junk : arr) (x : data) : data :=
  let x := diffusion_first m eq dt compute_residual use_filter x in
  diffusion_second m eq dt compute_residual use_filter junk {| d_st := d_st x; d_ldg := flux_bc (d_ldg x); d_state := d_state x; d_ref := d_ref x |}.
