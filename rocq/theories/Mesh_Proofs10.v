(** Reading a mesh file back, part 4: the result. *)
From Coq Require Import ZArith List Bool Reals Permutation Lia.
From Verif Require Import Outcome Math_Model Math_Thm Loop Connection_Model Mesh_Model Mesh_Spec Mesh_Proofs Mesh_Proofs2 Mesh_Proofs3 Mesh_Proofs4 Mesh_Proofs5 Mesh_Proofs6 Mesh_Proofs7 Mesh_Proofs8 Mesh_Proofs9.
Import ListNotations.
Local Open Scope Z_scope.
Local Arguments i_face : simpl never.
Local Arguments face_number : simpl never.
Local Arguments Nat.ltb : simpl never.

Lemma start_mesh : forall bcs nd cov, Nat.iter bcs (fun m => match add_boundary_condition m with Done m _ => m | _ => m end) (new_mesh nd cov)
  = mk_mesh nd empty_type empty_type (Z.of_nat bcs) cov (fun _ _ => 0) (fun _ _ => None) (fun _ => 0) 0.
Proof.
  induction bcs as [|n IH]; intros nd cov; [reflexivity|]. cbn [Nat.iter nat_rect]. unfold Nat.iter in IH. rewrite IH. cbn [add_boundary_condition n_dim car def n_bc covered face_record faces record next_id]. f_equal. lia.
Qed.
Lemma con_elements : forall m d c, wf m -> In c (cons (of_type d m)) -> In (c_elem0 c) (elements m) /\ In (c_elem1 c) (elements m).
Proof.
  intros m d c W I. assert (E : forall x, In x (con_ends c) -> In (fst (fst x)) (elements m)).
  { intros [f s] J. apply (wf_in _ W f s), (ends_in_of m d). unfold type_ends. apply in_or_app. left. apply in_flat_map. now exists c. }
  split; [exact (E _ (or_introl eq_refl))|exact (E _ (or_intror (or_introl eq_refl)))].
Qed.
Lemma bound_elements : forall m d c, wf m -> In c (bounds (of_type d m)) -> In (b_elem c) (elements m).
Proof.
  intros m d c W I. assert (E : forall x, In x (bound_ends c) -> In (fst (fst x)) (elements m)).
  { intros [f s] J. apply (wf_in _ W f s), (ends_in_of m d). unfold type_ends. apply in_or_app. right. apply in_or_app. left. apply in_flat_map. now exists c. }
  exact (E _ (or_introl eq_refl)).
Qed.
Lemma ref_elements : forall m d s c, wf m -> (s < 3)%nat -> In c (nth s (refs (of_type d m)) []) -> forall a, In a (r_coarse c :: r_fine c) -> In a (elements m).
Proof.
  intros m d s c W S I. assert (J : In c (concat (refs (of_type d m)))).
  { apply in_concat. exists (nth s (refs (of_type d m)) []). split; [|exact I]. apply nth_In. pose proof (wt_refs _ _ _ (wf_of m W d)). lia. }
  assert (E : forall x, In x (ref_ends c) -> In (fst (fst x)) (elements m)).
  { intros [f t] K. apply (wf_in _ W f t), (ends_in_of m d). unfold type_ends. apply in_or_app. right. apply in_or_app. right. apply in_flat_map. now exists c. }
  intros a [<-|A]; [exact (E _ (or_introl eq_refl))|]. apply (In_nth _ _ (false, 0)) in A. destruct A as (k & K & <-).
  assert (Q : In k (seq 0 (length (r_fine c)))) by (apply in_seq; split; [apply Nat.le_0_l|exact K]). exact (E _ (or_intror (in_map _ _ k Q))).
Qed.
Lemma storable_ref : forall m bcs d s c, wf m -> storable m bcs -> (s < 3)%nat -> In c (nth s (refs (of_type d m)) []) -> ref_ok m d s c.
Proof.
  intros m bcs d s c W ST S I. pose proof (wf_of m W d) as WT. destruct (wt_ref _ _ _ WT s c S I) as (L & (D0 & D1) & K).
  assert (J : In (nth s (refs (of_type d m)) []) (refs (of_type d m))) by (apply nth_In; pose proof (wt_refs _ _ _ WT); lia).
  split; [exact L|]. split; [exact D0|]. split; [exact D1|]. split; [exact K|]. split; [exact (ref_elements m d s c W S I)|]. destruct d.
  - intros k. exact (st_str _ _ ST _ c k J I).
  - exact (st_car _ _ ST _ c J I).
Qed.
Lemma filter_app' : forall A (p : A -> bool) l l', filter p (l ++ l') = filter p l ++ filter p l'.
Proof. intros A p l l'. induction l as [|x l IH]; [reflexivity|]. cbn. rewrite IH. now destruct (p x). Qed.
Lemma filter_none : forall A (p : A -> bool) l, (forall x, In x l -> p x = false) -> filter p l = [].
Proof. intros A p l. induction l as [|x l IH]; intros H; [reflexivity|]. cbn. rewrite H by now left. apply IH. intros; apply H; now right. Qed.

Lemma read_written : forall m bcs cov, wf m -> storable m bcs ->
  (forall cv c, cov = Some cv -> In c (bounds (car m) ++ bounds (def m)) -> cv (renumber m (b_elem c)) (face_number (b_dim c) (b_sign c)) = false) ->
  exists m', read_mesh (snd (write m)) bcs cov = Done m' tt /\ copy_with (reorder (n_dim m)) (renumber m) m m'.
Proof.
  intros m bcs cov W ST CV. unfold read_mesh. rewrite start_mesh. cbn [write snd f_dim]. set (m0 := mk_mesh _ _ _ _ _ _ _ _ _). unfold read_file. cbn [write snd f_elems f_cons f_refs f_bounds f_warp].
  change (car (number_elements m)) with (car m). change (def (number_elements m)) with (def m). pose proof (wf_dim _ W) as N.
  (* elements *)
  rewrite read_elems_app. destruct (read_elems_same false (elems (car m)) m0 []) as (m1 & -> & F1 & E1 & O1 & C1 & R1 & B1); [reflexivity|]. cbn [then_].
  pose proof F1 as (_ & _ & _ & Z1). cbn [of_type negb m0 car def empty_type next_sn elems cons refs bounds app] in E1, O1, C1, R1, B1.
  match goal with |- context [read_elems _ m1 ?p] => set (pt := p) end.
  destruct (read_elems_same true (elems (def m)) m1 pt) as (m2 & -> & F2 & E2 & O2 & C2 & R2 & B2); [intros a; now rewrite Z1|].
  cbn [then_ of_type negb] in *. rewrite O1 in E2, C2, R2, B2 |- *. cbn [m0 car def empty_type next_sn elems cons refs bounds app] in *. 
  match goal with |- context [run_rows (read_con ?p)] => replace p with (pointers m) by exact (pointers_numbered m W) end. clear pt.
  pose proof (frame_trans _ _ _ F1 F2) as F02. clear F1 F2 Z1. rewrite <- O2 in E1, C1, R1, B1. clear O1 O2 m1. pose proof F02 as (D2 & _). cbn in D2.
  (* conformal connections *)
  destruct (read_cons_rows m (cons (car m) ++ cons (def m)) m2) as (m3 & -> & F3 & E3 & CF3 & CT3 & R3 & B3); [lia| |].
  { rewrite D2. intros c I. apply in_app_or in I. destruct I as [I|I].
    - destruct (wt_con _ _ _ (wf_car _ W) c I) as ((X & Y) & K). destruct (con_elements m false c W I). repeat split; auto.
    - destruct (wt_con _ _ _ (wf_def _ W) c I) as ((X & Y) & K). destruct (con_elements m true c W I). repeat split; auto. cbn in K. unfold both_deformed. destruct K as [-> ->]. discriminate. }
  cbn [then_]. pose proof F3 as (D3 & _). rewrite map_app, run_rows_app.
  (* refined connections *)
  destruct (read_type_rows m false (refs (car m)) m3 N) as (m4 & -> & F4 & E4 & R4 & RO4 & _ & C4 & B4); [congruence|rewrite R3; unfold refs_of; cbn; now rewrite R1|apply (wt_refs _ _ _ (wf_car _ W))|intros s c S I; exact (storable_ref m bcs false s c W ST S I)|].
  cbn [then_]. pose proof F4 as (D4 & _).
  destruct (read_type_rows m true (refs (def m)) m4 N) as (m5 & -> & F5 & E5 & R5 & RO5 & _ & C5 & B5); [congruence|change true with (negb false); rewrite RO4, R3; unfold refs_of; cbn; now rewrite R2|apply (wt_refs _ _ _ (wf_def _ W))|intros s c S I; exact (storable_ref m bcs true s c W ST S I)|].
  cbn [then_]. pose proof F5 as (D5 & _). assert (F25 : frame m2 m5) by (eapply frame_trans; [exact F3|]; eapply frame_trans; eassumption).
  pose proof (frame_trans _ _ _ F02 F25) as F05. pose proof F05 as (_ & NB5 & _). cbn in NB5.
  (* boundary connections *)
  destruct (read_bounds_rows m (bounds (car m) ++ bounds (def m)) m5) as (m6 & -> & F6 & E6 & BF6 & BT6 & R6 & C6).
  { intros c I. rewrite NB5. split; [exact (st_bc _ _ ST c I)|]. apply in_app_or in I. destruct I as [I|I].
    - split; [apply (wt_bound _ _ _ (wf_car _ W) c I)|exact (bound_elements m false c W I)].
    - split; [apply (wt_bound _ _ _ (wf_def _ W) c I)|exact (bound_elements m true c W I)]. }
  cbn [then_].
  (* face warping *)
  assert (E26 : elems_of m6 = elems_of m2) by congruence. unfold elems_of in E26. injection E26 as EC6 ED6.
  destruct (read_warps m W (elems (def m)) [] m6 eq_refl) as (m7 & -> & F7 & CAR7 & E7 & C7 & R7 & B7); [now rewrite ED6, E2|]. cbn [then_].
  pose proof (frame_trans _ _ _ F05 (frame_trans _ _ _ F6 F7)) as F07. pose proof F07 as (D7 & _ & COV7 & Z7). cbn in D7, COV7, Z7.
  (* the tables *)
  assert (TC : map plain_con (cons (car m7)) = map (rename_con (renumber m)) (filter (fun c => negb (both_deformed c)) (cons (car m)))).
  { rewrite CAR7. change (map plain_con (cons (car m6))) with (cons_of false m6). rewrite C6, C5, C4, CF3. unfold cons_of at 1. cbn. rewrite C1. cbn. rewrite filter_app'. rewrite (filter_none _ _ (cons (def m))); [now rewrite app_nil_r|].
    intros c I. destruct (wt_con _ _ _ (wf_def _ W) c I) as (_ & K & K'). unfold both_deformed. now rewrite K, K'. }
  assert (TD : map plain_con (cons (def m7)) = map (rename_con (renumber m)) (filter both_deformed (cons (car m)) ++ cons (def m))).
  { rewrite C7. change (map plain_con (cons (def m6))) with (cons_of true m6). rewrite C6, C5, C4, CT3. unfold cons_of at 1. cbn. rewrite C2. cbn. rewrite filter_app'. rewrite (filter_all _ _ (cons (def m))); [reflexivity|].
    intros c I. destruct (wt_con _ _ _ (wf_def _ W) c I) as (_ & K & K'). unfold both_deformed. now rewrite K, K'. }
  assert (RC : map (map plain_ref) (refs (car m7)) = map (map (rename_ref (renumber m) r_fine)) (refs (car m))).
  { rewrite CAR7. change (map (map plain_ref) (refs (car m6))) with (refs_of false m6). rewrite R6. cbn in RO5. rewrite RO5, R4. reflexivity. }
  assert (RD : map (map plain_ref) (refs (def m7)) = map (map (rename_ref (renumber m) (reorder (n_dim m)))) (refs (def m))).
  { rewrite R7. change (map (map plain_ref) (refs (def m6))) with (refs_of true m6). rewrite R6, R5. reflexivity. }
  assert (BC : map plain_bound (bounds (car m7)) = map (rename_bound (renumber m)) (bounds (car m))).
  { rewrite CAR7. change (map plain_bound (bounds (car m6))) with (bounds_of false m6). rewrite BF6, B5, B4, B3. unfold bounds_of. cbn. rewrite B1. cbn. rewrite filter_app'. rewrite (filter_all _ _ (bounds (car m))), (filter_none _ _ (bounds (def m))); [now rewrite app_nil_r| |].
    - intros c I. now rewrite (proj2 (wt_bound _ _ _ (wf_def _ W) c I)).
    - intros c I. now rewrite (proj2 (wt_bound _ _ _ (wf_car _ W) c I)). }
  assert (BD : map plain_bound (bounds (def m7)) = map (rename_bound (renumber m)) (bounds (def m))).
  { rewrite B7. change (map plain_bound (bounds (def m6))) with (bounds_of true m6). rewrite BT6, B5, B4, B3. unfold bounds_of. cbn. rewrite B2. cbn. rewrite filter_app'. rewrite (filter_all _ _ (bounds (def m))), (filter_none _ _ (bounds (car m))); [reflexivity| |].
    - intros c I. now rewrite (proj2 (wt_bound _ _ _ (wf_car _ W) c I)).
    - intros c I. now rewrite (proj2 (wt_bound _ _ _ (wf_def _ W) c I)). }
  destruct (purge_keeps m7 Z7) as (PD & PC & PDE).
  { intros cv c E I. assert (J : In (plain_bound c) (map (rename_bound (renumber m)) (bounds (car m) ++ bounds (def m)))).
    { rewrite map_app, <- BC, <- BD, <- map_app. now apply in_map. }
    apply in_map_iff in J. destruct J as (c' & Q & J). unfold rename_bound, plain_bound, rename_bound in Q. injection Q as Q1 Q2 Q3 Q4. rewrite <- Q1, <- Q2, <- Q3. apply (CV cv); [congruence|exact J]. }
  exists (purge m7). split; [reflexivity|]. unfold copy_with. rewrite PC, PDE. split; [rewrite PD, D7; reflexivity|]. split; [exact (renumber_inj m)|].
  assert (WC : map (fun e => bare (snd e)) (elems (car m)) = map snd (elems (car m))).
  { apply map_ext_in. intros e I. pose proof (wt_warp _ _ _ (wf_car _ W) eq_refl e I) as X. unfold bare. destruct (snd e). cbn in *. now rewrite X. }
  split.
  { unfold elements at 1. rewrite PC, PDE. unfold addrs. rewrite E7, CAR7, EC6, E1, WC. symmetry. exact (pointers_numbered m W). }
  rewrite E7, CAR7, EC6, E1, WC, !numbered_snd. rewrite <- CAR7. now repeat split.
Qed.

(** when the order is kept *)
Lemma order_kept : forall nd d s0 s1 n r, (1 <= nd <= 3)%nat -> (dim0 d < nd)%nat -> (dim1 d < nd)%nat ->
  dim0 d = dim1 d \/ (sign0 d = sign1 d /\ (dim0 d + dim1 d <> 2)%nat) -> refined_connection nd d false [s0; s1] n = Ok r -> fine_cons r = seq 0 n.
Proof.
  intros nd [d0 d1 g0 g1] s0 s1 n r N D0 D1 K R. cbn in D0, D1, K. pose proof (fine_count_cases _ _ _ _ _ _ _ N R) as C.
  assert (A : forall nd d0 d1 g0 g1 s0 s1 n, In nd [1; 2; 3]%nat -> In d0 (seq 0 nd) -> In d1 (seq 0 nd) -> In n [1; 2; 4]%nat ->
     (Nat.eqb d0 d1 || (eqb g0 g1 && negb (Nat.eqb (d0 + d1) 2)))%bool = true ->
     match refined_connection nd (mk_dir d0 d1 g0 g1) false [s0; s1] n with Ok r => fine_cons r = seq 0 n | _ => True end).
  { clear. intros nd d0 d1 g0 g1 s0 s1 n A B C D. cbn in A, D. decompose [or] A; try contradiction; subst nd; cbn in B, C; decompose [or] B; try contradiction; subst d0; decompose [or] C; try contradiction; subst d1;
      decompose [or] D; try contradiction; subst n; destruct g0, g1; cbn [Nat.eqb eqb andb orb negb Nat.add]; try discriminate; intros _; destruct s0, s1; vm_compute; exact I || reflexivity. }
  specialize (A nd d0 d1 g0 g1 s0 s1 n). rewrite R in A. apply A.
  - cbn. lia.
  - apply in_seq. lia.
  - apply in_seq. lia.
  - cbn. lia.
  - destruct (Nat.eqb_spec d0 d1); [reflexivity|]. destruct K as [K|[-> K]]; [contradiction|]. rewrite eqb_reflx. destruct (Nat.eqb_spec (d0 + d1) 2); [contradiction|reflexivity].
Qed.
Lemma reorder_kept : forall m bcs c l, wf m -> storable m bcs -> In l (refs (def m)) -> In c l -> 
  dim0 (r_dir c) = dim1 (r_dir c) \/ (sign0 (r_dir c) = sign1 (r_dir c) /\ (dim0 (r_dir c) + dim1 (r_dir c) <> 2)%nat) -> reorder (n_dim m) c = r_fine c.
Proof.
  intros m bcs c l W ST L C K. apply (In_nth _ _ []) in L. destruct L as (s & S & <-). rewrite (wt_refs _ _ _ (wf_def _ W)) in S.
  destruct (wt_ref _ _ _ (wf_def _ W) s c S C) as (_ & (D0 & D1) & (r & R) & _ & _ & KR & s0 & s1 & KS). unfold reorder. rewrite R. rewrite KS, KR in R.
  rewrite (order_kept _ _ _ _ _ _ (wf_dim _ W) D0 D1 K R). apply nth_map_seq.
Qed.
