(** Theorems: the normals of a mesh after [calc_jacobian]. *)
From Coq Require Import Reals List Arith Lia Lra Permutation.
From Verif Require Import Outcome RSum Tensor_Model Tensor_Spec Connection_Model Connection_Spec Basis_Spec Quad_Model Quad_Spec Quad_Proofs Spatial_Model Spatial_Spec Spatial_Thm Free_Spec Free_Model Free_Thm
  Jac_Model Jac_Spec Jac_Proofs3 Jac_Proofs4 Jac_Proofs5 Jac_Proofs8 Jac_Proofs9 Jac_Proofs10 Jac_Proofs11.
From Verif Require Quad_Thm Jac_Proofs1.
Import ListNotations.
Local Open Scope R_scope.

(** ** normals of faces *)
(** After [calc_jacobian], wherever the points are, both sides of a deformed connection have the normal of the connection, up to
    the sign of the side and the order of the points of the side. *)
Theorem jac_shared : forall m pos size positive ghosts conf hang bcs st,
  let m' := fst (calc_jacobian m pos hang bcs st) in let st' := snd (calc_jacobian m pos hang bcs st) in
  let nd := m_dim m in let rs := m_row_size m in let nfq := (rs ^ (nd - 1))%nat in
  fits m' size positive ghosts -> arranged m ghosts conf hang bcs ->
  forall c j q, In c (def_cons m') -> (j < nd)%nat -> (q < nfq)%nat ->
  st' (c_face c false) (j * nfq + q)%nat = side_sign c false * con_normal nd nfq c q j /\
  fp_match nd rs nd (c_dir c) (st' (c_face c true)) (j * nfq + q)%nat = side_sign c true * con_normal nd nfq c q j.
Proof. exact shared_sides. Qed.
Print Assumptions jac_shared.
(** Between two elements it is the mean of the normals that the elements give to their faces. *)
Theorem jac_mean : forall m pos size positive ghosts conf hang bcs st,
  let st' := snd (calc_jacobian m pos hang bcs st) in
  let nd := m_dim m in let rs := m_row_size m in let nfq := (rs ^ (nd - 1))%nat in let own i := own_normal nd rs (m_basis m) (m_elem m i) (pos i) in
  fits (fst (calc_jacobian m pos hang bcs st)) size positive ghosts -> arranged m ghosts conf hang bcs ->
  forall c i0 f0 i1 f1 j q, In c conf -> is_face m i0 f0 (c_face c false) -> is_face m i1 f1 (c_face c true) -> (j < nd)%nat -> (q < nfq)%nat ->
  flip_sign (c_dir c) false * st' (c_face c false) (j * nfq + q)%nat
  = (flip_sign (c_dir c) false * own i0 f0 (j * nfq + q)%nat + flip_sign (c_dir c) true * fp_match nd rs nd (c_dir c) (own i1 f1) (j * nfq + q)%nat) / 2.
Proof. exact conf_mean. Qed.
Print Assumptions jac_mean.
(** A coarse face has the normal that its element gives it; mortar faces have what is prolonged from it; and with a rule of Gauss
    and Legendre it is what the normals of the mortar faces are restricted to. *)
Theorem jac_refined : forall m pos size positive ghosts conf hang bcs st node w ratio,
  let st' := snd (calc_jacobian m pos hang bcs st) in
  let nd := m_dim m in let rs := m_row_size m in let nfq := (rs ^ (nd - 1))%nat in let own i := own_normal nd rs (m_basis m) (m_elem m i) (pos i) in
  fits (fst (calc_jacobian m pos hang bcs st)) size positive ghosts -> arranged m ghosts conf hang bcs -> m_basis m = basis_on rs node w ratio -> as_legendre rs node w ->
  forall r i f j q, In r (ref_faces m) -> is_face m i f (r_coarse r) -> (j < nd)%nat -> (q < nfq)%nat ->
  st' (r_coarse r) (j * nfq + q)%nat = own i f (j * nfq + q)%nat /\
  (forall k, (k < n_fine nd (r_stretch r))%nat -> st' (r_fine r k) (j * nfq + q)%nat = of_coarse m (own i f) (r_stretch r) k j q) /\
  st' (r_coarse r) (j * nfq + q)%nat = rsum (n_fine nd (r_stretch r)) (fun k => face_dims nd rs (r_stretch r) (fun x => x / 2) (b_restrict (m_basis m)) k (var_of nfq j (st' (r_fine r k))) q).
Proof.
  intros m pos size positive ghosts conf hang bcs st node w ratio st' nd rs nfq own F AR B LG r i f j q I FI J Q. unfold st'. rewrite (after_st m pos hang bcs st). split; [|split].
  - apply (coarse_final m pos size positive ghosts conf hang bcs st F AR r i f); [exact I|exact FI|]. now apply Jac_Proofs1.entry_lt.
  - intros k K. exact (mortar_final m pos size positive ghosts conf hang bcs st F AR r k i f j q I K FI J Q).
  - exact (refined_final m pos size positive ghosts conf hang bcs st F AR node w ratio B r j q LG I J Q).
Qed.
Print Assumptions jac_refined.

(** ** one element closes *)
(** In two dimensions: wherever the points are, for any basis. *)
Theorem jac_plane : forall rs b e size pos, (0 < rs)%nat -> e_deformed e = true -> e_nrml e = set_nrml 2 rs b size pos -> closed_element 2 rs b e (set_face_nrml 2 rs b size pos).
Proof. exact plane_closed. Qed.
Print Assumptions jac_plane.
(** In three dimensions: for elements that are given by their vertices. *)
Theorem jac_solid : forall rs node w ratio e size vert, (2 <= rs)%nat -> as_legendre rs node w ->
  let b := basis_on rs node w ratio in let pos r := position 3 rs node (vert r) (fun _ => 0) in
  e_deformed e = true -> e_nrml e = set_nrml 3 rs b size pos -> closed_element 3 rs b e (set_face_nrml 3 rs b size pos).
Proof.
  intros rs node w ratio e size vert RS LG b pos DE NE. apply (solid_closed rs node w ratio e size vert pos); try assumption.
  intros r q RR Q. apply position_multilinear; lia.
Qed.
Print Assumptions jac_solid.
(** The full statement, that three-dimensional elements whose faces have been snapped close as well, is true with up to three points
    in a row: *)
Theorem jac_snapped_partial : forall rs node w ratio e size vert adj, (2 <= rs <= 3)%nat -> as_legendre rs node w ->
  let b := basis_on rs node w ratio in let pos r := position 3 rs node (vert r) adj in
  e_deformed e = true -> e_nrml e = set_nrml 3 rs b size pos -> closed_element 3 rs b e (set_face_nrml 3 rs b size pos).
Proof. intros rs node w ratio e size vert adj RS LG b pos. now apply solid_low_closed. Qed.
Print Assumptions jac_snapped_partial.
(** It is false with four: even for a symmetric rule, if all determinants are positive and if only one face has been snapped, to
    positions which [snap_node_adj] can give: a polynomial one degree lower than the basis which leaves the vertices in place and
    whose values and derivatives are so small that it is not discarded. *)
Theorem jac_snapped_refuted : ~ (forall rs node w ratio e size vert c, (2 <= rs)%nat -> as_legendre rs node w -> mirrored rs node -> gentle (rs - 1) c ->
  let b := basis_on rs node w ratio in let pos r := position 3 rs node (vert r) (bent rs node (rs - 1) c) in
  (forall q, (q < rs ^ 3)%nat -> 0 < set_det 3 rs b size pos q) ->
  e_deformed e = true -> e_nrml e = set_nrml 3 rs b size pos -> closed_element 3 rs b e (set_face_nrml 3 rs b size pos)).
Proof.
  intros H. set (b := basis_on 4 gauss4_node gauss4_weight 0).
  set (e := {| e_face := fun f => f; e_tss := fun _ => 1; e_size := 1; e_deformed := true; e_det := fun _ => 1; e_nrml := set_nrml 3 4 b 1 bulged; e_face_nrml := fun _ => None |}).
  apply (bulged_not_closed 0 e eq_refl eq_refl). apply (H 4%nat gauss4_node gauss4_weight 0 e 1 frustum hump ltac:(lia) gauss4 gauss4_mirrored hump_gentle (bulged_valid 0) eq_refl eq_refl).
Qed.
Print Assumptions jac_snapped_refuted.

(** ** uniform flow *)
(** If the elements close and give the same normals to the faces where they meet, [calc_jacobian] gives normals with which a
    uniform flow stays uniform. *)
Theorem jac_agreeing : forall m pos size positive ghosts conf hang bcs st node w ratio u use_filter dts x,
  let m' := fst (calc_jacobian m pos hang bcs st) in
  let own i := own_normal (m_dim m) (m_row_size m) (m_basis m) (m_elem m i) (pos i) in
  fits m' size positive ghosts -> arranged m ghosts conf hang bcs -> m_basis m = basis_on (m_row_size m) node w ratio -> as_legendre (m_row_size m) node w -> agreeing m pos conf hang ->
  (forall i, In i (elems m) -> closed_element (m_dim m) (m_row_size m) (m_basis m) (m_elem m' i) (own i)) ->
  let eq := euler (m_dim m) in
  let y := inviscid_steps m' eq u ghosts use_filter dts (initialize m' eq u x) in
  let z := inviscid_residual m' eq u ghosts use_filter y in
  forall i, In i (elems m) -> filled (m_dim m + 2) (m_row_size m ^ m_dim m) u (d_state y i) /\ filled (m_dim m + 2) (m_row_size m ^ m_dim m) (fun _ => 0) (d_ref z i).
Proof.
  intros m pos size positive ghosts conf hang bcs st node w ratio u uf dts x m' own F AR B LG AG CE.
  assert (ME : m_elem m' = set_elem m pos) by (unfold m'; now rewrite (after_mesh m pos hang bcs st)). rewrite ME in CE.
  pose proof (after_closed m pos size positive ghosts conf hang bcs st F AR node w ratio B AG LG CE) as CL. fold m' in CL.
  assert (LB : as_lobatto (m_row_size m) node w) by (destruct LG as [RU IN]; split; [exact RU|apply (integrates_le _ _ _ (2 * m_row_size m)); [lia|exact IN]]).
  assert (M : m_dim m' = m_dim m /\ m_row_size m' = m_row_size m /\ m_basis m' = m_basis m /\ elems m' = elems m) by (unfold m'; now rewrite (after_mesh m pos hang bcs st)).
  destruct M as (M1 & M2 & M3 & M4). intros eq y z i I. rewrite <- M4 in I.
  pose proof (free_uniform_flow m' size positive ghosts node w ratio u _ uf dts x F ltac:(now rewrite M3, M2) ltac:(now rewrite M2) CL i I) as H. cbv zeta in H. rewrite M1, M2 in H. fold eq in H. fold y in H. fold z in H. tauto.
Qed.
Print Assumptions jac_agreeing.
(** In particular on every mesh, in two or three dimensions, with deformed elements that are given by their vertices and meet in
    any orientation, and with hanging nodes. *)
Theorem jac_uniform_flow : forall m pos size positive ghosts conf hang bcs st node w ratio v u use_filter dts x,
  let m' := fst (calc_jacobian m pos hang bcs st) in
  fits m' size positive ghosts -> arranged m ghosts conf hang bcs -> m_basis m = basis_on (m_row_size m) node w ratio -> as_legendre (m_row_size m) node w -> mirrored (m_row_size m) node ->
  (2 <= m_dim m)%nat -> by_vertices m node pos v conf hang ->
  let eq := euler (m_dim m) in
  let y := inviscid_steps m' eq u ghosts use_filter dts (initialize m' eq u x) in
  let z := inviscid_residual m' eq u ghosts use_filter y in
  forall i, In i (elems m) -> filled (m_dim m + 2) (m_row_size m ^ m_dim m) u (d_state y i) /\ filled (m_dim m + 2) (m_row_size m ^ m_dim m) (fun _ => 0) (d_ref z i).
Proof.
  intros m pos size positive ghosts conf hang bcs st node w ratio v u uf dts x m' F AR B LG MI N2 BV.
  assert (D : distinct (m_row_size m) node) by apply LG.
  apply (jac_agreeing m pos size positive ghosts conf hang bcs st node w ratio u uf dts x F AR B LG).
  - exact (vertices_agree m pos size positive ghosts conf hang bcs st node w ratio v F AR B D MI N2 BV).
  - intros i I. unfold m'. rewrite (after_mesh m pos hang bcs st). cbn [m_elem]. exact (vertices_element m pos size positive ghosts conf hang bcs st node w ratio v F B D N2 BV LG i I).
Qed.
Print Assumptions jac_uniform_flow.

(** ** three deformed elements with a hanging node *)
(** the face between the two fine elements and the coarse one is inclined *)
Definition ex_vert (i r u : nat) : R :=
  nth u (nth r (nth i [[[0; 0; 1; 6 / 5]; [0; 1; 0; 1]]; [[1; 11 / 10; 2; 2]; [0; 1 / 2; 0; 3 / 5]]; [[11 / 10; 6 / 5; 2; 2]; [1 / 2; 1; 3 / 5; 1]]] []) []) 0.
Definition ex_pos (i r : nat) : arr := position 2 2 Quad_Thm.gauss_node (ex_vert i r) (fun _ => 0).
Definition ex_def (a c dim : nat) (sign : bool) : con := {| c_face := fun side => if side then c else a; c_deformed := true; c_dir := mk_dir dim dim sign (negb sign); c_normal := fun _ => 0 |}.
Definition ex_conf := [ex_def 7 10 1 true].
Definition ex_hang := [ex_def 12 4 0 true; ex_def 13 8 0 true].
Definition ex_bcs := [ex_def 0 20 0 false; ex_def 2 21 1 false; ex_def 3 22 1 true; ex_def 5 23 0 true; ex_def 6 24 1 false; ex_def 9 25 0 true; ex_def 11 26 1 true].
Definition ex_bent : mesh := {| m_dim := 2; m_row_size := 2; m_basis := basis_on 2 Quad_Thm.gauss_node Quad_Thm.gauss_weight (1 / 2);
  car_cons := []; def_cons := ex_conf ++ ex_hang ++ ex_bcs; car_elems := []; def_elems := [0; 1; 2]%nat;
  m_elem := fun i => {| e_face := fun f => (4 * i + f)%nat; e_tss := fun _ => 1; e_size := if (i =? 0)%nat then 1 else 1 / 2; e_deformed := true; e_det := fun _ => 0; e_nrml := fun _ => 0; e_face_nrml := fun _ => None |};
  ref_faces := [{| r_coarse := 1%nat; r_fine := fun k => (12 + k)%nat; r_stretch := fun _ => false |}] |}.
Lemma ex_node i : 0 < Quad_Thm.gauss_node i < 1.
Proof. destruct Quad_Thm.sqrt3 as [Q P]. assert (1 < sqrt 3) by nra. assert (0 < 1 / sqrt 3 < 1) by (split; [apply Rdiv_lt_0_compat; lra|apply (Rmult_lt_reg_r (sqrt 3)); [exact P|]; unfold Rdiv; rewrite Rmult_assoc, Rinv_l by lra; lra]). destruct i; cbn; lra. Qed.
Lemma ex_mirrored : mirrored 2 Quad_Thm.gauss_node.
Proof. intros i I. destruct i as [|[|i]]; [cbn; lra..|lia]. Qed.
Lemma ex_legendre : as_legendre 2 Quad_Thm.gauss_node Quad_Thm.gauss_weight.
Proof. exact (proj1 Quad_Thm.quad_gauss). Qed.
Lemma ex_det i q : In i [0; 1; 2]%nat -> (q < 2 ^ 2)%nat -> 0 < set_det 2 2 (m_basis ex_bent) (e_size (m_elem ex_bent i)) (ex_pos i) q.
Proof.
  intros I Q. unfold set_det. cbn [m_basis ex_bent].
  assert (PM : forall r q, (r < 2)%nat -> (q < 2 ^ 2)%nat -> ex_pos i r q = multilinear 2 (ex_vert i r) (here 2 2 Quad_Thm.gauss_node q)) by (intros r p RR PP; apply position_multilinear; lia).
  assert (J : forall r c, (r < 2)%nat -> (c < 2)%nat -> jacobian 2 2 (basis_on 2 Quad_Thm.gauss_node Quad_Thm.gauss_weight (1 / 2)) (e_size (m_elem ex_bent i)) (ex_pos i) r c q = tang 2 (ex_vert i r) c (here 2 2 Quad_Thm.gauss_node q) / e_size (m_elem ex_bent i)).
  { intros r c RR C. apply jacobian_is; try assumption; try lia. exact (proj1 (proj1 ex_legendre)). }
  unfold determinant. rewrite !J by lia. clear J PM. pose proof (ex_node (digit 2 2 0 q) : 0 < here 2 2 Quad_Thm.gauss_node q 0%nat < 1) as X. pose proof (ex_node (digit 2 2 1 q) : 0 < here 2 2 Quad_Thm.gauss_node q 1%nat < 1) as Y. revert X Y. generalize (here 2 2 Quad_Thm.gauss_node q). intros h X Y.
  unfold tang, setx, multilinear, vertex_weight.
  destruct I as [<-|[<-|[<-|[]]]]; cbn.
  - match goal with |- 0 < ?a => replace a with (1 + h 1%nat / 5) by field end. lra.
  - match goal with |- 0 < ?a => replace a with (4 * (1 / 2 + h 0%nat / 10 - 6 * h 1%nat / 100)) by field end. lra.
  - match goal with |- 0 < ?a => replace a with (4 * (44 / 100 - 8 * h 0%nat / 100 - 4 * h 1%nat / 100)) by field end. lra.
Qed.
Lemma ex_after : let m' := fst (calc_jacobian ex_bent ex_pos ex_hang ex_bcs (fun _ _ => 0)) in
  map (fun c => (c_face c false, c_face c true, c_deformed c, c_dir c)) (def_cons m') = map (fun c => (c_face c false, c_face c true, c_deformed c, c_dir c)) (def_cons ex_bent).
Proof. reflexivity. Qed.
Example jac_fits : fits (fst (calc_jacobian ex_bent ex_pos ex_hang ex_bcs (fun _ _ => 0))) (fun id => if ex_small id then 1 / 2 else 1) ex_positive [20; 21; 22; 23; 24; 25; 26]%nat.
Proof.
  set (m' := fst (calc_jacobian ex_bent ex_pos ex_hang ex_bcs (fun _ _ => 0))).
  assert (D : NoDup (inner_faces m' ++ all_mortars m' ++ [20; 21; 22; 23; 24; 25; 26]%nat)) by (apply nodup_check; vm_compute; reflexivity).
  constructor.
  - change (1 <= 2 <= 3)%nat. lia.
  - change (2 <= 2)%nat. lia.
  - apply nodup_check. reflexivity.
  - intros i I. change (In i [0; 1; 2]%nat) in I. assert (E : m_elem m' i = set_elem ex_bent ex_pos i) by (unfold m'; now rewrite after_mesh). rewrite E. cbv zeta.
    split; [cbn; destruct (i =? 0)%nat; lra|]. split; [intros q Q; split; [cbn; lra|intros _; pose proof (ex_det i q I Q) as P; intros Z; revert P; change (e_det (set_elem ex_bent ex_pos i) q) with (set_det 2 2 (m_basis ex_bent) (e_size (m_elem ex_bent i)) (ex_pos i) q) in Z; rewrite Z; lra]|].
    intros f FI. change (f < 4)%nat in FI. destruct I as [<-|[<-|[<-|[]]]]; destruct f as [|[|[|[|f]]]]; try lia; split; reflexivity.
  - intros c I. assert (E : In (c_face c false, c_face c true, c_deformed c, c_dir c) (map (fun c => (c_face c false, c_face c true, c_deformed c, c_dir c)) (def_cons ex_bent))) by (rewrite <- ex_after; exact (in_map (fun c => (c_face c false, c_face c true, c_deformed c, c_dir c)) _ c I)).
    cbn in E. repeat (destruct E as [E|E]; [inversion E as [[E1 E2 E3 E4]]; split; [reflexivity|]; intros [|]; rewrite <- ?E1, <- ?E2, <- ?E3, <- ?E4; reflexivity|]). destruct E.
  - intros r k I K. assert (E : ref_faces m' = ref_faces ex_bent) by (unfold m'; now rewrite after_mesh). rewrite E in I. destruct I as [<-|[]]. change (k < 2)%nat in K. destruct k as [|[|k]]; [split; [cbn; field|reflexivity]..|lia].
  - apply incl_check. vm_compute. reflexivity.
  - exact D.
  - apply NoDup_Permutation; [apply nodup_check; vm_compute; reflexivity|exact D|]. intros x. split; apply incl_check; vm_compute; reflexivity.
Qed.
Example jac_arranged : arranged ex_bent [20; 21; 22; 23; 24; 25; 26]%nat ex_conf ex_hang ex_bcs.
Proof.
  constructor.
  - apply Permutation_refl.
  - intros c [].
  - intros c I. cbn in I. repeat (destruct I as [<-|I]; [reflexivity|]). destruct I.
  - intros c side [<-|[]]. apply (incl_check [if side then 10 else 7]%nat); [destruct side; reflexivity|now left].
  - intros c [<-|[<-|[]]]; split; cbn; tauto.
  - intros c I. cbn in I. repeat (destruct I as [<-|I]; [cbn; tauto|]). destruct I.
Qed.
Lemma ex_is_face i f id : is_face ex_bent i f id -> i = (id / 4)%nat /\ f = (id mod 4)%nat.
Proof. intros (_ & L & E). cbn in L, E. split; [apply (Nat.div_unique id 4 i f); lia|apply (Nat.mod_unique id 4 i f); lia]. Qed.
Lemma ex_on a s u : on_face 2 a s u -> (a < 2)%nat -> u = (if (a =? 0)%nat then 2 * Nat.b2n s else Nat.b2n s)%nat \/ u = (if (a =? 0)%nat then 2 * Nat.b2n s + 1 else 2 + Nat.b2n s)%nat.
Proof. intros [L E] A. cbn in L. destruct a as [|[|a]]; [| |lia]; do 4 (destruct u as [|u]; [destruct s; cbn in E; (discriminate || (cbn; lia))|]); lia. Qed.
Lemma meet_same d s v0 v1 : (d < 2)%nat -> (forall r u, (r < 2)%nat -> (u < 2)%nat -> let at_ s := if (d =? 0)%nat then (2 * Nat.b2n s + u)%nat else (2 * u + Nat.b2n s)%nat in v0 r (at_ s) = v1 r (at_ (negb s))) -> meet 2 (mk_dir d d s (negb s)) v0 v1.
Proof.
  intros DD H u0 u1 r O0 O1 [G _] RR. cbn [dim0 dim1 sign0 sign1] in *. specialize (G (1 - d)%nat ltac:(lia) ltac:(lia) ltac:(lia)).
  pose proof (H r 0%nat RR ltac:(lia)) as H0. pose proof (H r 1%nat RR ltac:(lia)) as H1. cbv zeta in H0, H1.
  destruct (ex_on _ _ _ O0 DD) as [->| ->]; destruct (ex_on _ _ _ O1 DD) as [->| ->]; destruct d as [|[|d]]; try lia; destruct s; cbn in *; try discriminate; assumption.
Qed.
Example jac_by_vertices : by_vertices ex_bent Quad_Thm.gauss_node ex_pos ex_vert ex_conf ex_hang.
Proof.
  constructor.
  - reflexivity.
  - intros i I D. discriminate.
  - intros c i0 f0 i1 f1 [<-|[]] F0 F1. apply ex_is_face in F0 as [-> ->]. apply ex_is_face in F1 as [-> ->]. split; [unfold allowed; cbn; split; [lia|split; [lia|right; discriminate]]|]. split; [reflexivity|]. split; [reflexivity|].
    apply meet_same; [lia|]. intros r u RR U. destruct r as [|[|r]]; try lia; destruct u as [|[|u]]; try lia; cbn; reflexivity.
  - intros c r k i0 f0 i1 f1 C [<-|[]] K E F0 F1. change (k < 2)%nat in K. apply ex_is_face in F0 as [-> ->].
    destruct C as [<-|[<-|[]]]; (destruct k as [|[|k]]; [| |lia]); cbn in E; try discriminate; apply ex_is_face in F1 as [-> ->]; (split; [unfold allowed; cbn; split; [lia|split; [lia|right; discriminate]]|]); (split; [reflexivity|]); (split; [reflexivity|]);
      apply meet_same; try lia; intros r u RR U; destruct r as [|[|r]]; try lia; destruct u as [|[|u]]; try lia; unfold part, multilinear, vertex_weight; cbn; field.
  - intros c side i f [].
  - intros c side r k i f [].
Qed.
Example jac_example : forall u use_filter dts x i, In i [0; 1; 2]%nat ->
  let m' := fst (calc_jacobian ex_bent ex_pos ex_hang ex_bcs (fun _ _ => 0)) in
  filled 4 4 u (d_state (inviscid_steps m' (euler 2) u [20; 21; 22; 23; 24; 25; 26]%nat use_filter dts (initialize m' (euler 2) u x)) i).
Proof.
  intros u uf dts x i I m'. exact (proj1 (jac_uniform_flow ex_bent ex_pos _ _ _ ex_conf ex_hang ex_bcs (fun _ _ => 0) Quad_Thm.gauss_node Quad_Thm.gauss_weight (1 / 2) ex_vert u uf dts x jac_fits jac_arranged eq_refl ex_legendre ex_mirrored (le_n 2) jac_by_vertices i I)).
Qed.
