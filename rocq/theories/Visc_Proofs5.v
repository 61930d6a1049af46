(** The viscous solver in uniform flow. *)
From Coq Require Import Reals List Arith Bool Lia Lra FunctionalExtensionality Permutation.
From Verif Require Import Outcome RSum Tensor_Spec Connection_Model Basis_Spec Quad_Model Quad_Spec Spatial_Model Spatial_Spec Spatial_Proofs Spatial_Proofs4 Spatial_Proofs5 Free_Spec Free_Model Free_Proofs1 Free_Proofs3 Free_Proofs4 Visc_Model Visc_Spec Visc_Proofs2 Visc_Proofs4.
From Verif Require Import Jac_Model Jac_Spec Jac_Proofs3 Jac_Proofs9.
From Verif Require Pde_Model Bc_Model.
Import ListNotations.
Local Open Scope R_scope.

(** ** the Navier-Stokes equations *)
Lemma ns_carried nd dv tc u : carried nd (navier_stokes nd dv tc) (nd + 2) u u (unit_flux nd u).
Proof.
  constructor; cbn.
  - lia.
  - intros s H. exact H.
  - intros s normal v d H V D. now apply euler_flux_linear.
  - intros s normal v H V. now apply euler_flux_linear.
  - intros s v H V. now apply H.
Qed.
Lemma ns_additive nd dv tc : additive (navier_stokes nd dv tc). Proof. intros upd crit d v. reflexivity. Qed.
Lemma ns_still nd dv tc : still nd (navier_stokes nd dv tc).
Proof.
  intros s normal g v d G V D. cbn [flux_diff n_extrap n_update navier_stokes] in *. unfold flux_diff_ns. cbv zeta. set (dc := coefficient dv _). set (kc := coefficient tc _).
  assert (VG : forall i j, (i < nd)%nat -> (j < nd)%nat -> (g i j - s i / s nd * g nd j) / s nd = 0) by (intros i j I J; rewrite !G by lia; unfold Rdiv; ring).
  assert (TR : rsum nd (fun i => (g i i - s i / s nd * g nd i) / s nd) = 0) by (rewrite (rsum_ext nd _ (fun _ => 0)) by (intros; now apply VG); apply rsum_0).
  rewrite TR. rewrite (rsum_ext nd _ (fun _ => 0)); [apply rsum_0|]. intros j J.
  assert (S0 : forall i, (i < nd)%nat -> dc * ((g i j - s i / s nd * g nd j) / s nd + (g j i - s j / s nd * g nd i) / s nd) + (Rabs (s (bulk_av_offset nd)) * s nd - 2 / 3 * dc) * 0 * (if (i =? j)%nat then 1 else 0) = 0) by (intros i I; rewrite (VG i j), (VG j i) by assumption; ring).
  rewrite (rsum_ext nd _ (fun _ => 0)) by (intros i I; rewrite S0 by assumption; ring). rewrite rsum_0.
  rewrite (rsum_ext nd (fun i => s i / s nd * _) (fun _ => 0)) by (intros i I; rewrite VG by assumption; ring). rewrite rsum_0.
  rewrite (G v j), (G nd j), (G (nd + 1)%nat j) by lia. destruct (Nat.ltb_spec v nd) as [L|L].
  - pose proof (S0 v L) as E. rewrite (G v j), (G nd j) in E by lia. rewrite E. destruct (v =? nd + 1)%nat; unfold Rdiv; ring.
  - destruct (v =? nd + 1)%nat; unfold Rdiv; ring.
Qed.

(** ** boundary conditions *)
Lemma flux_bcs_insulating m n bcs : incl (map fst bcs) (inner_faces m) -> (forall id, In id (inner_faces m) -> ~ In id (map snd bcs)) -> insulating m n (map snd bcs) (apply_flux_bcs bcs).
Proof.
  intros IN OUT s. unfold apply_flux_bcs. revert s IN OUT. induction bcs as [|[i g] bcs IH]; intros s IN OUT; [split; [reflexivity|intros _ id []]|]. cbn [map fst snd fold_left] in *.
  destruct (IH (fput s g (s i))) as [I1 I2]; [intros z Z; apply IN; now right|intros z Z X; apply (OUT z Z); now right|]. split.
  - intros id O. rewrite I1 by (intros X; apply O; now right). apply fput_out. intros ->. apply O. now left.
  - intros Z id I. assert (Z' : forall id, In id (inner_faces m) -> filled n (m_row_size m ^ (m_dim m - 1)) (fun _ => 0) (fput s g (s i) id)).
    { intros k K. rewrite fput_out by (intros ->; apply (OUT g K); now left). now apply Z. }
    destruct (in_dec Nat.eq_dec id (map snd bcs)) as [J|J]; [now apply I2|]. rewrite I1 by exact J. destruct I as [<-|I]; [|contradiction]. rewrite fput_in. apply Z, IN. now left.
Qed.

Section Solver.
Variables (m : mesh) (size : nat -> R) (positive : nat -> bool) (bcs : list (nat * nat)) (node w : nat -> R) (ratio : R) (dv tc : transport_model) (u : nat -> R) (fn : nat -> arr).
Hypotheses (F : fits m size positive (map snd bcs)) (B : m_basis m = basis_on (m_row_size m) node w ratio) (LB : as_lobatto (m_row_size m) node w) (IN : incl (map fst bcs) (inner_faces m)) (CL : closed m fn) (SE : sees m fn).
Let nd := m_dim m.
Let rs := m_row_size m.
Let ns := navier_stokes nd dv tc.
Let eu := euler nd.
Let U : unital rs (m_basis m). Proof. rewrite B. apply basis_unital; [pose proof (fit_rows _ _ _ _ F); unfold rs; lia|apply LB]. Qed.
Lemma calm_diffusion junk uf cr dt x : calm m eu u x ->
  let x' := compute_diffusion m ns dt cr uf (apply_flux_bcs bcs) junk (apply_state_bcs m ns u (map snd bcs) x) in
  calm m eu u x' /\ forall i, In i (elems m) -> d_state x' i = d_state x i /\ zeros (nd + 2) (rs ^ nd) (d_ref x' i).
Proof.
  intros K x'. destruct (bcs_values m ns u (map snd bcs) x) as (B1 & _).
  destruct (diffusion_uniform m size positive (map snd bcs) node w ratio ns (nd + 2) u u (unit_flux nd u) fn (apply_flux_bcs bcs) F B LB (ns_carried nd dv tc u) (ns_additive nd dv tc) eq_refl eq_refl eq_refl) with (dt := dt) (cr := cr) (uf := uf) (junk := junk) (x := apply_state_bcs m ns u (map snd bcs) x) as [E1 E2].
  - cbn. lia.
  - apply ns_still.
  - exact CL.
  - exact SE.
  - apply flux_bcs_insulating; [exact IN|]. intros id I. now apply (inner_ghost m size positive (map snd bcs) F).
  - exact (calm_uniform m size positive (map snd bcs) ns u F x K).
  - fold x' in E1, E2. rewrite B1 in E1. split; [|exact E1]. split; [|exact E2]. intros i I. rewrite (proj1 (E1 i I)). now apply K.
Qed.
Lemma visc_calm_step junk uf dt x : calm m eu u x -> let x' := viscous_step m dv tc u bcs junk uf dt x in calm m eu u x' /\ forall i, In i (elems m) -> d_state x' i = d_state x i.
Proof.
  intros K x'. unfold x', viscous_step. cbv zeta. destruct (calm_diffusion junk uf false dt x K) as [K1 E1]. fold nd ns eu. set (x1 := compute_diffusion m ns dt false uf _ junk _) in *.
  destruct (calm_stage m size positive (map snd bcs) eu u _ fn F U (euler_carried nd u) (euler_additive nd) eq_refl eq_refl eq_refl CL dt true false uf x1 K1) as [K2 E2]; [intros _ i I; now apply E1|]. split; [exact K2|].
  intros i I. rewrite (proj1 (E2 i I)). now apply E1.
Qed.
Lemma visc_calm_steps junk uf dts : forall x, calm m eu u x -> let x' := viscous_steps m dv tc u bcs junk uf dts x in calm m eu u x' /\ forall i, In i (elems m) -> d_state x' i = d_state x i.
Proof.
  induction dts as [|dt dts IH]; intros x K; [split; [exact K|reflexivity]|]. cbn [viscous_steps fold_left]. destruct (visc_calm_step junk uf dt x K) as [K1 E1]. destruct (IH _ K1) as [K2 E2]. split; [exact K2|].
  intros i I. etransitivity; [apply E2, I|now apply E1].
Qed.
End Solver.

(** ** normals of the elements *)
Lemma cartesian_sees m axis fn : cartesian m axis -> sees m fn.
Proof. intros CA i k j q I D K. rewrite (proj1 (ct_elem _ _ CA i k I K)) in D. discriminate. Qed.
Lemma point_fits m st size positive ghosts : fits (point_normals m st) size positive ghosts -> fits m size positive ghosts.
Proof. intros [H1 H2 H3 H4 H5 H6 H7 H8 H9]. constructor; assumption. Qed.
Lemma fits_point m st size positive ghosts : fits m size positive ghosts -> fits (point_normals m st) size positive ghosts.
Proof. intros [H1 H2 H3 H4 H5 H6 H7 H8 H9]. constructor; assumption. Qed.
Lemma point_closed m st fn : closed m fn -> closed (point_normals m st) fn.
Proof. intros [H1 H2 H3 H4]. constructor; assumption. Qed.
Lemma n_fine_pos nd str : (1 <= nd <= 3)%nat -> (0 < n_fine nd str)%nat.
Proof.
  intros N. unfold n_fine, loop. destruct nd as [|[|[|[|nd]]]]; try lia; cbn [Nat.sub seq fold_left].
  - cbn. lia.
  - destruct (str 0%nat); cbn; lia.
  - destruct (str 0%nat), (str 1%nat); cbn; lia.
Qed.
(** [calc_jacobian] on elements that are given by their vertices: the deformed ones see the normals it leaves on their faces *)
Lemma bent_sees m pos size positive ghosts conf hang bcs st node v : let m1 := fst (calc_jacobian m pos hang bcs st) in let st1 := snd (calc_jacobian m pos hang bcs st) in
  fits m1 size positive ghosts -> by_vertices m node pos v conf hang -> sees (point_normals m1 st1) st1.
Proof.
  intros m1 st1 F BV i k j q I D K J Q. unfold face_normal. cbn [point_normals m_elem point_elem e_face_nrml e_face e_deformed m_dim m_row_size] in *. rewrite D. cbn [andb].
  destruct (on_deformed m1 (e_face (m_elem m1 i) k)) eqn:E; [reflexivity|]. exfalso. unfold on_deformed in E. apply orb_false_iff in E as [E1 E2].
  assert (M : m_dim m1 = m_dim m /\ car_cons m1 = car_cons m /\ ref_faces m1 = ref_faces m /\ elems m1 = elems m /\ m_elem m1 = set_elem m pos) by (unfold m1; now rewrite (after_mesh m pos hang bcs st)).
  destruct M as (M1 & M2 & M3 & M4 & M5). change (In i (elems m1)) in I.
  assert (IS : is_face m i k (e_face (m_elem m1 i) k)) by (split; [now rewrite <- M4|]; split; [now rewrite <- M1|]; rewrite M5; now rewrite set_face).
  assert (DM : e_deformed (m_elem m i) = true) by (rewrite <- D, M5; symmetry; apply set_deformed).
  assert (OUT : forall id, In id (side_faces (cons m1)) -> existsb (Nat.eqb id) (side_faces (def_cons m1)) = false -> exists c side, In c (car_cons m) /\ c_face c side = id).
  { intros id S X. unfold cons, side_faces in S. rewrite flat_map_app in S. apply in_app_or in S as [S|S].
    - apply in_flat_map in S as (c & C & [<-|[<-|[]]]); rewrite M2 in C; [exists c, false|exists c, true]; now split.
    - exfalso. assert (Y : existsb (Nat.eqb id) (side_faces (def_cons m1)) = true) by (apply existsb_exists; exists id; split; [exact S|apply Nat.eqb_refl]). congruence. }
  destruct (inner_side m1 size positive ghosts F (e_face (m_elem m1 i) k)) as [S|S].
  - now apply (face_in m1 size positive ghosts F).
  - destruct (OUT _ S E1) as (c & side & C & CE). rewrite <- CE in IS. destruct (vt_flat _ _ _ _ _ _ BV c side i k C IS) as [X _]. congruence.
  - apply in_map_iff in S as (r & CR & RI).
    assert (NF : (0 < n_fine (m_dim m1) (r_stretch r))%nat) by (apply n_fine_pos; exact (fit_dim _ _ _ _ F)).
    assert (E3 : existsb (Nat.eqb (r_fine r 0%nat)) (side_faces (def_cons m1)) = false).
    { destruct (existsb (Nat.eqb (r_fine r 0%nat)) (side_faces (def_cons m1))) eqn:X; [|reflexivity]. exfalso.
      assert (Y : existsb (fun r => Nat.eqb (e_face (m_elem m1 i) k) (r_coarse r) && existsb (Nat.eqb (r_fine r 0%nat)) (side_faces (def_cons m1)))%bool (ref_faces m1) = true) by (apply existsb_exists; exists r; split; [exact RI|]; now rewrite CR, Nat.eqb_refl, X).
      congruence. }
    destruct (OUT (r_fine r 0%nat)) as (c & side & C & CE); [|exact E3|].
    + apply (mortar_side m1 size positive ghosts F). now apply (mortar_in m1 size positive ghosts F).
    + rewrite <- CR in IS. rewrite M3 in RI. rewrite M1 in NF. destruct (vt_mortar _ _ _ _ _ _ BV c side r 0%nat i k C RI NF CE IS) as (X & _). congruence.
Qed.
