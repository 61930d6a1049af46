(** Reading a mesh file back, part 2: the tables. *)
From Coq Require Import ZArith List Bool Reals Permutation Lia.
From Verif Require Import Outcome Math_Model Math_Thm Loop Connection_Model Mesh_Model Mesh_Spec Mesh_Proofs Mesh_Proofs2 Mesh_Proofs3 Mesh_Proofs4 Mesh_Proofs5 Mesh_Proofs6 Mesh_Proofs7.
Import ListNotations.
Local Open Scope Z_scope.
Local Arguments i_face : simpl never.
Local Arguments face_number : simpl never.
Local Arguments Nat.ltb : simpl never.

Lemma addr_eqb_spec : forall a b, addr_eqb a b = true <-> a = b.
Proof.
  intros [x y] [x' y']. unfold addr_eqb. cbn. rewrite andb_true_iff, eqb_true_iff, Z.eqb_eq. split; [intros [-> ->]; reflexivity|intros H; injection H as -> ->; auto].
Qed.
Lemma index_spec : forall a l i, In a l -> exists k, index a l i = i + Z.of_nat k /\ nth_error l k = Some a.
Proof.
  intros a l. induction l as [|b l IH]; intros i []; cbn.
  - subst. rewrite (proj2 (addr_eqb_spec a a)) by reflexivity. exists 0%nat. split; [lia|reflexivity].
  - destruct (addr_eqb a b) eqn:E; [exists 0%nat; split; [lia|apply addr_eqb_spec in E; now subst]|]. destruct (IH (i + 1) H) as (k & -> & N). exists (S k). split; [lia|exact N].
Qed.
Lemma record_number : forall m a, In a (elements m) -> record (number_elements m) a = index a (elements m) 0.
Proof.
  intros m a H. unfold number_elements. cbn. rewrite (proj2 (existsb_exists _ _)); [reflexivity|]. exists a. split; [exact H|now apply addr_eqb_spec].
Qed.
Definition pointers (m : mesh) : list addr := map (renumber m) (elements m).
Lemma ptr_of : forall m a, In a (elements m) -> ptr (pointers m) (record (number_elements m) a) = Some (renumber m a).
Proof.
  intros m a H. rewrite record_number by exact H. destruct (index_spec a (elements m) 0 H) as (k & -> & N). unfold ptr. destruct (Z.ltb_spec (0 + Z.of_nat k) 0); [lia|].
  replace (Z.to_nat (0 + Z.of_nat k)) with k by lia. unfold pointers. now rewrite nth_error_map, N.
Qed.
Lemma fst_renumber : forall m a, fst (renumber m a) = fst a. Proof. reflexivity. Qed.
Lemma to_dim_nat : forall n, to_dim (Z.of_nat n) = Some n.
Proof. intros n. unfold to_dim. destruct (Z.ltb_spec (Z.of_nat n) 0); [lia|]. now rewrite Nat2Z.id. Qed.
Lemma nonzero_b : forall b, nonzero (Z.b2z b) = b. Proof. now intros []. Qed.
Local Arguments renumber : simpl never.
Local Arguments number_elements : simpl never.

(** conformal connections *)
Lemma read_con_row : forall m c mm, (n_dim mm <= 3)%nat -> (dim0 (c_dir c) < n_dim mm)%nat -> (dim1 (c_dir c) < n_dim mm)%nat ->
  In (c_elem0 c) (elements m) -> In (c_elem1 c) (elements m) -> (both_deformed c = false -> c_dir c = cart_to_dir (dim0 (c_dir c))) ->
  exists mm', read_con (pointers m) (write_con (number_elements m) c) mm = Done mm' tt /\ frame mm mm' /\ elems_of mm' = elems_of mm
    /\ cons_of (both_deformed c) mm' = cons_of (both_deformed c) mm ++ [rename_con (renumber m) c]
    /\ cons_of (negb (both_deformed c)) mm' = cons_of (negb (both_deformed c)) mm
    /\ (forall e, refs_of e mm' = refs_of e mm) /\ (forall e, bounds_of e mm' = bounds_of e mm).
Proof.
  intros m c mm N D0 D1 I0 I1 K. unfold read_con, write_con. rewrite !ptr_of by assumption. unfold dim_z, sign_z. cbn [i_dim face_sign]. rewrite !to_dim_nat, !nonzero_b, !fst_renumber.
  change (fst (c_elem0 c) && fst (c_elem1 c))%bool with (both_deformed c).
  destruct (both_deformed c) eqn:B.
  - replace (mk_dir _ _ _ _) with (c_dir c) by now destruct (c_dir c). now apply new_con_done.
  - rewrite <- (K eq_refl). now apply new_con_done.
Qed.
Lemma read_cons_rows : forall m cs mm, (n_dim mm <= 3)%nat ->
  (forall c, In c cs -> (dim0 (c_dir c) < n_dim mm)%nat /\ (dim1 (c_dir c) < n_dim mm)%nat /\
     In (c_elem0 c) (elements m) /\ In (c_elem1 c) (elements m) /\ (both_deformed c = false -> c_dir c = cart_to_dir (dim0 (c_dir c)))) ->
  exists mm', run_rows (read_con (pointers m)) (map (write_con (number_elements m)) cs) mm = Done mm' tt /\ frame mm mm' /\ elems_of mm' = elems_of mm
    /\ cons_of false mm' = cons_of false mm ++ map (rename_con (renumber m)) (filter (fun c => negb (both_deformed c)) cs)
    /\ cons_of true mm' = cons_of true mm ++ map (rename_con (renumber m)) (filter both_deformed cs)
    /\ (forall e, refs_of e mm' = refs_of e mm) /\ (forall e, bounds_of e mm' = bounds_of e mm).
Proof.
  intros m cs. induction cs as [|c cs IH]; intros mm N H.
  - exists mm. cbn. rewrite !app_nil_r. split; [reflexivity|]. split; [apply frame_refl|]. now repeat split.
  - destruct (H c) as (D0 & D1 & I0 & I1 & K); [now left|]. destruct (read_con_row m c mm N D0 D1 I0 I1 K) as (m1 & E & F & EL & C1 & C2 & R & B).
    pose proof F as (FD & _). destruct (IH m1) as (m2 & E2 & F2 & EL2 & C3 & C4 & R2 & B2); [lia|intros c' I'; rewrite FD; apply H; now right|].
    exists m2. cbn [map run_rows]. rewrite E. cbn [then_]. split; [exact E2|]. split; [exact (frame_trans _ _ _ F F2)|]. split; [congruence|].
    rewrite C3, C4. cbn [filter]. destruct (both_deformed c) eqn:BD; cbn [negb] in *; rewrite C1, C2, <- ?app_assoc; (split; [reflexivity|]); (split; [reflexivity|]); split; intros e; now rewrite ?R2, ?B2.
Qed.

(** boundary connections *)
Lemma read_bounds_rows : forall m cs mm,
  (forall c, In c cs -> b_bc c < n_bc mm /\ (b_dim c < 3)%nat /\ In (b_elem c) (elements m)) ->
  exists mm', run_rows (read_bound (pointers m)) (map (write_bound (number_elements m)) cs) mm = Done mm' tt /\ frame mm mm' /\ elems_of mm' = elems_of mm
    /\ bounds_of false mm' = bounds_of false mm ++ map (rename_bound (renumber m)) (filter (fun c => negb (fst (b_elem c))) cs)
    /\ bounds_of true mm' = bounds_of true mm ++ map (rename_bound (renumber m)) (filter (fun c => fst (b_elem c)) cs)
    /\ (forall e, refs_of e mm' = refs_of e mm) /\ (forall e, cons_of e mm' = cons_of e mm).
Proof.
  intros m cs. induction cs as [|c cs IH]; intros mm H.
  - exists mm. cbn. rewrite !app_nil_r. split; [reflexivity|]. split; [apply frame_refl|]. now repeat split.
  - destruct (H c) as (L & D & I); [now left|]. cbn [map run_rows]. unfold read_bound at 1, write_bound at 1. rewrite (proj2 (Z.ltb_lt _ _)) by exact L.
    rewrite ptr_of by exact I. rewrite to_dim_nat, nonzero_b, fst_renumber.
    destruct (new_bound_done (fst (b_elem c)) (renumber m (b_elem c)) (b_dim c) (b_sign c) (b_bc c) mm D) as (m1 & -> & F & EL & B1 & B2 & R & C). cbn [then_].
    pose proof F as (_ & FB & _). destruct (IH m1) as (m2 & E2 & F2 & EL2 & B3 & B4 & R2 & C2); [intros c' I'; rewrite FB; apply H; now right|].
    exists m2. split; [exact E2|]. split; [exact (frame_trans _ _ _ F F2)|]. split; [congruence|].
    rewrite B3, B4. cbn [filter]. destruct (fst (b_elem c)) eqn:BD; cbn [negb] in *; rewrite B1, B2, <- ?app_assoc; (split; [reflexivity|]); (split; [reflexivity|]); split; intros e; now rewrite ?R2, ?C2.
Qed.

(** refined connections *)
Lemma select_ptrs_map : forall m l, (forall a, In a l -> In a (elements m)) -> select_ptrs (pointers m) (map (record (number_elements m)) l) = Some (map (renumber m) l).
Proof.
  intros m. induction l as [|a l IH]; intros H; [reflexivity|]. cbn. rewrite ptr_of by (apply H; now left). now rewrite IH by (intros; apply H; now right).
Qed.
Lemma fine_number : forall nd d rev a b n r, (1 <= nd <= 3)%nat -> refined_connection nd d rev [a; b] n = Ok r ->
  (forall k, nth k [a; b] false = true -> (k < nd - 1)%nat) -> pow_int 2 (Z.of_nat nd - 1 - Z.b2z a - Z.b2z b) = Ok (Z.of_nat n).
Proof.
  intros nd d rev a b n r N. unfold refined_connection.
  destruct (n =? 0)%nat; [discriminate|]. destruct (coarse_stretch d [a; b]) as [cstr| | |]; try discriminate. cbn [bind].
  match goal with |- context [ofold ?f ?l ?s] => remember (ofold f l s) as o eqn:O end. intros R H.
  assert (C : exists k any, o = Ok (k, any) /\ pow_int 2 (Z.of_nat nd - 1 - Z.b2z a - Z.b2z b) = Ok (Z.of_nat k)).
  { subst o. pose proof (H 0%nat) as H0. pose proof (H 1%nat) as H1. cbn in H0, H1.
    assert (nd = 1 \/ nd = 2 \/ nd = 3)%nat as [-> | [-> | ->]] by lia; destruct a, b; try (specialize (H0 eq_refl)); try (specialize (H1 eq_refl)); try lia; cbn; eexists; eexists; split; reflexivity. }
  destruct C as (k & any & -> & K). cbn [bind] in R. destruct (Nat.eqb_spec n k); cbn [negb] in R; [now subst|discriminate].
Qed.
Lemma cartesian_order : forall nd i rev n r, (1 <= nd <= 3)%nat -> (i < nd)%nat -> refined_connection nd (cart_to_dir i) rev [false; false] n = Ok r ->
  n = n_fine (nd - 1) /\ fine_cons r = seq 0 n.
Proof.
  intros nd i rev n r N I R. pose proof (fine_number _ _ _ _ _ _ _ N R) as P. assert (E : n = n_fine (nd - 1)).
  { specialize (P ltac:(intros [|[|[|]]]; discriminate)). assert (nd = 1 \/ nd = 2 \/ nd = 3)%nat as [-> | [-> | ->]] by lia; cbn in P |- *; injection P; lia. }
  split; [exact E|]. subst n. clear P. assert (nd = 1 \/ nd = 2 \/ nd = 3)%nat as [-> | [-> | ->]] by lia; clear N.
  - assert (i = 0)%nat as -> by lia. destruct rev; vm_compute in R; injection R as <-; reflexivity.
  - assert (i = 0 \/ i = 1)%nat as [-> | ->] by lia; destruct rev; vm_compute in R; injection R as <-; reflexivity.
  - assert (i = 0 \/ i = 1 \/ i = 2)%nat as [-> | [-> | ->]] by lia; destruct rev; vm_compute in R; injection R as <-; reflexivity.
Qed.
(** the row of a refined connection *)
Lemma write_ref_row : forall m c s0 s1, r_str c = [s0; s1] -> (length (r_fine c) = 1 \/ length (r_fine c) = 2 \/ length (r_fine c) = 4)%nat ->
  exists f0 f1 f2 f3, firstn (length (r_fine c)) [f0; f1; f2; f3] = map (record m) (r_fine c)
    /\ write_ref m c = [record m (r_coarse c); f0; f1; f2; f3; Z.b2z s0; Z.b2z s1; dim_z (r_dir c) (r_rev c); dim_z (r_dir c) (negb (r_rev c)); sign_z (r_dir c) (r_rev c); sign_z (r_dir c) (negb (r_rev c))].
Proof.
  intros m c s0 s1 S L. unfold write_ref. rewrite S.
  destruct (r_fine c) as [|a0 [|a1 [|a2 [|a3 [|a4 l]]]]]; cbn in L; try lia; cbn; do 4 eexists; split; try reflexivity; destruct (r_rev c); reflexivity.
Qed.
Definition order_of (m : mesh) (d : bool) (c : ref_con) : list addr := if d then reorder (n_dim m) c else r_fine c.
Lemma log_int_slot : forall s, (s < 3)%nat -> log_int 2 (Z.of_nat (n_fine s)) = Ok (Z.of_nat s).
Proof. intros [|[|[|s]]] H; try lia; reflexivity. Qed.
Lemma n_fine_inj : forall s s', (s < 3)%nat -> (s' < 3)%nat -> n_fine s = n_fine s' -> s = s'.
Proof. intros [|[|[|s]]] [|[|[|s']]] H H'; cbn; lia. Qed.
Lemma read_ref_row : forall m (d : bool) s c mm, (1 <= n_dim m <= 3)%nat -> n_dim mm = n_dim m -> length (refs (of_type d mm)) = 3%nat -> (s < 3)%nat ->
  length (r_fine c) = n_fine s -> (dim0 (r_dir c) < n_dim m)%nat -> (dim1 (r_dir c) < n_dim m)%nat -> ref_kind (n_dim m) d c ->
  (forall a, In a (r_coarse c :: r_fine c) -> In a (elements m)) ->
  (if d then forall k, nth k (r_str c) false = true -> (k < n_dim m - 1)%nat else exists a, In a (r_coarse c :: r_fine c) /\ fst a = false) ->
  exists mm', read_ref (pointers m) (write_ref (number_elements m) c) mm = Done mm' tt /\ frame mm mm' /\ elems_of mm' = elems_of mm
    /\ append_at s (rename_ref (renumber m) (order_of m d) c) (refs_of d mm) = Some (refs_of d mm') /\ refs_of (negb d) mm' = refs_of (negb d) mm
    /\ (forall e, length (refs (of_type e mm')) = length (refs (of_type e mm)))
    /\ (forall e, cons_of e mm' = cons_of e mm) /\ (forall e, bounds_of e mm' = bounds_of e mm).
Proof.
  intros m d s c mm N ND LR S LF D0 D1 ((r & R) & K) I H.
  assert (C4 : (length (r_fine c) = 1 \/ length (r_fine c) = 2 \/ length (r_fine c) = 4)%nat).
  { rewrite LF. destruct s as [|[|[|s]]]; cbn; lia. }
  assert (FI : forall a, In a (r_fine c) -> In a (elements m)) by (intros; apply I; now right).
  destruct d.
  - destruct K as (KC & KF & KR & s0 & s1 & KS). destruct (write_ref_row (number_elements m) c s0 s1 KS C4) as (f0 & f1 & f2 & f3 & FF & ->).
    rewrite KS in H, R. unfold read_ref. rewrite !nonzero_b, ND. rewrite (fine_number _ _ _ _ _ _ _ N R H). rewrite Nat2Z.id, FF, select_ptrs_map by exact FI.
    rewrite ptr_of by (apply I; now left). rewrite KR. unfold dim_z, sign_z. cbn [negb i_dim face_sign]. rewrite !to_dim_nat, !nonzero_b.
    assert (A : forallb fst (renumber m (r_coarse c) :: map (renumber m) (r_fine c)) = true).
    { apply forallb_forall. intros a [<-|J]; [exact KC|]. apply in_map_iff in J. destruct J as (b & <- & J). exact (KF b J). }
    rewrite A, LF, log_int_slot, Nat2Z.id by exact S. replace (mk_dir _ _ _ _) with (r_dir c) by now destruct (r_dir c).
    rewrite KR in R. destruct (new_ref_done true s (renumber m (r_coarse c)) (map (renumber m) (r_fine c)) (r_dir c) false [s0; s1] mm r) as (m' & E & F & EL & RE & RO & RL & CC & BB); auto; try lia.
    { rewrite ND, map_length. exact R. }
    exists m'. split; [exact E|]. split; [exact F|]. split; [exact EL|]. split; [|now repeat split].
    unfold rename_ref, order_of, reorder. rewrite KS, KR, R. rewrite <- RE. f_equal. repeat f_equal. rewrite map_map. apply map_ext_in. intros i J.
    pose proof (fine_cons_bound _ _ _ _ _ _ R i J). rewrite (nth_indep (map (renumber m) (r_fine c)) _ (renumber m (false, 0))) by (rewrite map_length; lia). now rewrite map_nth.
  - destruct K as (KD & KS). destruct (write_ref_row (number_elements m) c false false KS C4) as (f0 & f1 & f2 & f3 & FF & ->).
    rewrite KS, KD in R. unfold read_ref. rewrite !nonzero_b, ND. rewrite (fine_number _ _ _ _ _ _ _ N R) by (intros [|[|[|]]]; discriminate). rewrite Nat2Z.id, FF, select_ptrs_map by exact FI.
    rewrite ptr_of by (apply I; now left). unfold dim_z, sign_z. rewrite !to_dim_nat.
    assert (A : forallb fst (renumber m (r_coarse c) :: map (renumber m) (r_fine c)) = false).
    { apply not_true_is_false. intros T. rewrite forallb_forall in T. destruct H as (a & J & FA). rewrite <- (fst_renumber m) in FA. rewrite T in FA; [discriminate|].
      change (renumber m (r_coarse c) :: map (renumber m) (r_fine c)) with (map (renumber m) (r_coarse c :: r_fine c)). now apply in_map. }
    rewrite A. destruct (cartesian_order _ _ _ _ _ N D0 R) as [LN FC].
    assert (S' : (n_dim m - 1)%nat = s) by (apply n_fine_inj; [lia|exact S|congruence]). rewrite S'.
    replace (Z.b2z (face_sign (r_dir c) (r_rev c)) <? Z.b2z (face_sign (r_dir c) (negb (r_rev c)))) with (r_rev c) by (rewrite KD; destruct (r_rev c); reflexivity).
    replace (cart_to_dir (i_dim (r_dir c) (r_rev c))) with (r_dir c) by (rewrite KD at 2; rewrite KD at 1; destruct (r_rev c); reflexivity).
    rewrite <- KD in R. destruct (new_ref_done false s (renumber m (r_coarse c)) (map (renumber m) (r_fine c)) (r_dir c) (r_rev c) [false; false] mm r) as (m' & E & F & EL & RE & RO & RL & CC & BB); auto; try lia.
    { rewrite ND, map_length. exact R. }
    exists m'. split; [exact E|]. split; [exact F|]. split; [exact EL|]. split; [|now repeat split].
    unfold rename_ref, order_of. rewrite KS, <- RE. f_equal. repeat f_equal. rewrite FC. rewrite <- (map_length (renumber m)). symmetry. apply nth_map_seq.
Qed.
