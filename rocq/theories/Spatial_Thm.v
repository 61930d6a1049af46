(** Theorems: the kernels change totals only through the boundary. *)
From Coq Require Import Reals List Arith Lia Lra FunctionalExtensionality Permutation.
From Verif Require Import Outcome RSum Tensor_Spec Row_Model Connection_Model Basis_Spec Quad_Model Quad_Spec Spatial_Model Spatial_Spec Spatial_Proofs Spatial_Proofs2 Spatial_Proofs4 Spatial_Proofs6.
Import ListNotations.
Local Open Scope R_scope.

(** Both stages of the convective update. [y] is whatever the boundary conditions and other code make of the result of the first stage
    before the second; they leave the state and the cache of elements alone. *)
Theorem spatial_convection : forall m size positive ghosts node w ratio eq dt use_filter x v,
  fits m size positive ghosts -> m_basis m = basis_on (m_row_size m) node w ratio -> as_lobatto (m_row_size m) node w -> symmetric (m_row_size m) w ->
  additive eq -> has_convection eq = true -> has_diffusion eq = false -> has_source eq = false -> (v < n_update eq <= n_extrap eq)%nat ->
  let x' := compute_convection m eq dt false false use_filter x in
  let b0 := through m size positive ghosts (d_st x') v in
  change m (d_state x) (d_state x') v = dt * b0 /\ cached m (d_ref x') v = b0 /\
  forall y, d_state y = d_state x' -> d_ref y = d_ref x' ->
    let y' := compute_convection m eq dt true false use_filter y in
    let b1 := through m size positive ghosts (d_st y') v in
    change m (d_state y) (d_state y') v = dt * ratio * (b1 - b0) /\
    change m (d_state x) (d_state y') v = dt * ((1 - ratio) * b0 + ratio * b1).
Proof.
  intros m size positive ghosts node w ratio eq dt uf x v F B LB SY A HC HD NS [V NX] x' b0.
  assert (G : good (m_row_size m) (m_basis m)) by (rewrite B; apply basis_good; [apply (fit_rows _ _ _ _ F)|exact LB]).
  assert (HV : halves (m_row_size m) (m_basis m)) by (rewrite B; apply basis_halves; [apply (fit_rows _ _ _ _ F)|exact LB]).
  assert (SY' : symmetric (m_row_size m) (b_weight (m_basis m))) by (rewrite B; exact SY).
  destruct (convection_total m size positive ghosts eq F G HV SY' A NS NX dt false false uf x v HC HD V) as (T1 & _ & T3 & _). fold x' b0 in T1, T3. rewrite gain_change in T1.
  split; [exact T1|]. split; [now apply T3|]. intros y Y1 Y2 y' b1.
  destruct (convection_total m size positive ghosts eq F G HV SY' A NS NX dt true false uf y v HC HD V) as (S1 & _). fold y' b1 in S1. rewrite gain_change in S1. rewrite Y2, (T3 eq_refl eq_refl) in S1. replace (b_step_ratio (m_basis m)) with ratio in S1 by (rewrite B; reflexivity).
  split; [exact S1|]. transitivity (change m (d_state x) (d_state x') v + change m (d_state y) (d_state y') v); [|rewrite T1, S1; ring].
  unfold change. rewrite <- Spatial_Proofs5.lsum_plus. apply Spatial_Proofs5.lsum_ext. intros i I. rewrite Y1. unfold amount, quad. rewrite <- Rmult_plus_distr_l, <- rsum_plus. f_equal. apply rsum_ext. intros q Q. unfold Rdiv. ring.
Qed.
Print Assumptions spatial_convection.

(** With [compute_residual] the update goes to the cache and the state stays. *)
Theorem spatial_residual : forall m size positive ghosts node w ratio eq dt use_filter x v,
  fits m size positive ghosts -> m_basis m = basis_on (m_row_size m) node w ratio -> as_lobatto (m_row_size m) node w -> symmetric (m_row_size m) w ->
  additive eq -> has_convection eq = true -> has_diffusion eq = false -> has_source eq = false -> (v < n_update eq <= n_extrap eq)%nat ->
  let x' := compute_convection m eq dt false true use_filter x in
  change m (fun _ _ => 0) (d_ref x') v = dt * through m size positive ghosts (d_st x') v /\ forall i, In i (elems m) -> d_state x' i = d_state x i.
Proof.
  intros m size positive ghosts node w ratio eq dt uf x v F B LB SY A HC HD NS [V NX] x'.
  assert (G : good (m_row_size m) (m_basis m)) by (rewrite B; apply basis_good; [apply (fit_rows _ _ _ _ F)|exact LB]).
  assert (HV : halves (m_row_size m) (m_basis m)) by (rewrite B; apply basis_halves; [apply (fit_rows _ _ _ _ F)|exact LB]).
  assert (SY' : symmetric (m_row_size m) (b_weight (m_basis m))) by (rewrite B; exact SY).
  destruct (convection_total m size positive ghosts eq F G HV SY' A NS NX dt false true uf x v HC HD V) as (T1 & T2 & _). fold x' in T1, T2. rewrite gain_change in T1. split; [exact T1|now apply T2].
Qed.
Print Assumptions spatial_residual.

(** The diffusive update, with or without a convective flux. What goes through the boundary are the convective flux, the viscous
    flux that the boundary conditions give and its correction. *)
Theorem spatial_diffusion : forall m size positive ghosts node w ratio eq dt compute_residual use_filter flux_bc junk x v,
  fits m size positive ghosts -> m_basis m = basis_on (m_row_size m) node w ratio -> as_lobatto (m_row_size m) node w -> symmetric (m_row_size m) w ->
  additive eq -> has_diffusion eq = true -> has_source eq = false -> (v < n_update eq <= n_extrap eq)%nat -> (n_extrap eq <= 2 * n_update eq)%nat ->
  (forall s id, ~ In id ghosts -> flux_bc s id = s id) ->
  let given := flux_bc (d_ldg (diffusion_first m eq dt compute_residual use_filter x)) in
  let x' := compute_diffusion m eq dt compute_residual use_filter flux_bc junk x in
  let total := dt * ((if has_convection eq then through m size positive ghosts (d_st x') v else 0) + through m size positive ghosts given v + through m size positive ghosts (d_ldg x') v) in
  if compute_residual then change m (fun _ _ => 0) (d_ref x') v = total /\ forall i, In i (elems m) -> d_state x' i = d_state x i
  else change m (d_state x) (d_state x') v = total.
Proof.
  intros m size positive ghosts node w ratio eq dt cr uf flux_bc junk x v F B LB SY A HD NS [V NX] NE BC given x' total.
  assert (G : good (m_row_size m) (m_basis m)) by (rewrite B; apply basis_good; [apply (fit_rows _ _ _ _ F)|exact LB]).
  assert (HV : halves (m_row_size m) (m_basis m)) by (rewrite B; apply basis_halves; [apply (fit_rows _ _ _ _ F)|exact LB]).
  assert (SY' : symmetric (m_row_size m) (b_weight (m_basis m))) by (rewrite B; exact SY).
  destruct (diffusion_total m size positive ghosts eq F G HV SY' A NS NX dt cr uf flux_bc junk x v HD NE V BC) as (T1 & T2). fold given x' in T1, T2. rewrite gain_change in T1. destruct cr; [split; [exact T1|now apply T2]|exact T1].
Qed.
Print Assumptions spatial_diffusion.

(** ** One large element and two small ones at its right: the mesh fits, with a hanging node. *)
Definition ex_elem (i : nat) : elem := {| e_face := fun f => (4 * i + f)%nat; e_tss := fun _ => 1; e_size := if (i =? 0)%nat then 1 else 1 / 2; e_deformed := false; e_det := fun _ => 1; e_nrml := fun _ => 0; e_face_nrml := fun _ => None |}.
Definition ex_con (d a c : nat) : con := {| c_face := fun side => if side then c else a; c_deformed := false; c_dir := mk_dir d d true false; c_normal := fun _ => 0 |}.
Definition ex_mesh : mesh := {| m_dim := 2; m_row_size := 2; m_basis := basis_on 2 INR (fun _ => 1 / 2) (1 / 2);
  car_cons := [ex_con 0 12 4; ex_con 0 13 8; ex_con 1 7 10; ex_con 0 20 0; ex_con 1 21 2; ex_con 1 3 22; ex_con 0 5 23; ex_con 1 24 6; ex_con 0 9 25; ex_con 1 11 26]; def_cons := [];
  car_elems := [0; 1; 2]%nat; def_elems := []; m_elem := ex_elem; ref_faces := [{| r_coarse := 1%nat; r_fine := fun k => (12 + k)%nat; r_stretch := fun _ => false |}] |}.
Definition ex_small (id : nat) : bool := existsb (Nat.eqb id) [4; 5; 6; 7; 8; 9; 10; 11; 12; 13; 23; 24; 25; 26]%nat.
Definition ex_positive (id : nat) : bool := existsb (Nat.eqb id) [1; 3; 5; 7; 9; 11; 12; 13; 20; 21; 24]%nat.
Lemma nodup_check (l : list nat) : (fix go l := match l with [] => true | x :: l => (negb (existsb (Nat.eqb x) l) && go l)%bool end) l = true -> NoDup l.
Proof.
  induction l as [|x l IH]; intros H; [constructor|]. apply Bool.andb_true_iff in H as [H1 H2]. constructor; [|now apply IH]. intros I. assert (existsb (Nat.eqb x) l = true) by (apply existsb_exists; exists x; split; [exact I|apply Nat.eqb_refl]). rewrite H in H1. discriminate.
Qed.
Lemma incl_check (l l' : list nat) : forallb (fun x => existsb (Nat.eqb x) l') l = true -> incl l l'.
Proof. intros H x I. rewrite forallb_forall in H. specialize (H x I). apply existsb_exists in H as (y & Y & E). apply Nat.eqb_eq in E. now subst. Qed.
Example spatial_fits : fits ex_mesh (fun id => if ex_small id then 1 / 2 else 1) ex_positive [20; 21; 22; 23; 24; 25; 26]%nat.
Proof.
  assert (D : NoDup (inner_faces ex_mesh ++ all_mortars ex_mesh ++ [20; 21; 22; 23; 24; 25; 26]%nat)) by (apply nodup_check; vm_compute; reflexivity).
  constructor; cbn [m_dim m_row_size ex_mesh].
  - lia.
  - lia.
  - apply nodup_check. reflexivity.
  - intros i I. cbn in I. destruct I as [<-|[<-|[<-|[]]]]; cbn [m_elem ex_mesh]; (split; [cbn; lra|]; split; [intros; cbn; split; [lra|discriminate]|]; intros f FI; destruct f as [|[|[|[|f]]]]; [..|cbn in FI; lia]; split; reflexivity).
  - intros c I. cbn in I. repeat (destruct I as [<-|I]; [split; [reflexivity|intros [|]; reflexivity]|]). destruct I.
  - intros r k I K. cbn in I. destruct I as [<-|[]]. cbn in K. destruct k as [|[|k]]; [split; [cbn; field|reflexivity]..|lia].
  - apply incl_check. reflexivity.
  - exact D.
  - apply NoDup_Permutation; [apply nodup_check; vm_compute; reflexivity|exact D|]. intros x. split; apply incl_check; vm_compute; reflexivity.
Qed.
(** ** One element in one dimension with advection to the right: more flows in than out. *)
Definition ex_eq : pde := {| n_update := 1; n_extrap := 1; has_convection := true; has_diffusion := false; has_source := false; fetch_extrap := fun s v => s v; flux_conv := fun s n v d => s v * n d 0%nat;
  flux_diff := fun _ _ _ _ _ => 0; source := fun _ _ => 0; face_flux := fun s n v => s v * n 0%nat; face_update_state := fun s v => s v; face_char_speed := fun _ _ => 1; write_update := fun u c d v => add_update 1 u c d v |}.
Definition ex_line : mesh := {| m_dim := 1; m_row_size := 2; m_basis := basis_on 2 INR (fun _ => 1 / 2) (1 / 2); car_cons := [ex_con 0 2 0; ex_con 0 1 3]; def_cons := []; car_elems := [0]%nat; def_elems := [];
  m_elem := fun _ => {| e_face := fun f => f; e_tss := fun _ => 1; e_size := 1; e_deformed := false; e_det := fun _ => 1; e_nrml := fun _ => 0; e_face_nrml := fun _ => None |}; ref_faces := [] |}.
Definition ex_data : data := {| d_st := fun id _ => if (id =? 2)%nat then 3 else 1; d_ldg := fun _ _ => 0; d_state := fun _ _ => 1; d_ref := fun _ _ => 0 |}.
Example spatial_line : let x' := compute_convection ex_line ex_eq (1 / 10) false false false ex_data in
  d_state x' 0%nat 0%nat = 7 / 5 /\ d_state x' 0%nat 1%nat = 1 /\
  through ex_line (fun _ => 1) (fun id => (id =? 1)%nat || (id =? 2)%nat)%bool [2; 3]%nat (d_st x') 0 = 2.
Proof.
  assert (M : Rmax 1 1 = 1) by (apply Rmax_left; lra). assert (Q : sqrt (0 + 1 * (1 * 1)) = 1) by (replace (0 + 1 * (1 * 1)) with 1 by ring; apply sqrt_1).
  cbv zeta. split; [|split].
  - cbv -[Rplus Rmult Rminus Ropp Rinv Rdiv Rmax sqrt IZR]. rewrite M, Q. field.
  - cbv -[Rplus Rmult Rminus Ropp Rinv Rdiv Rmax sqrt IZR]. rewrite M, Q. field.
  - cbv -[Rplus Rmult Rminus Ropp Rinv Rdiv Rmax sqrt IZR]. rewrite M, Q. field.
Qed.
