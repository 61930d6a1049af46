(** [calc_jacobian] on a mesh. *)
From Coq Require Import Reals List Arith Lia Lra FunctionalExtensionality Permutation.
From Verif Require Import Outcome RSum Tensor_Model Tensor_Spec Connection_Model Quad_Model Quad_Spec Spatial_Model Spatial_Spec Spatial_Proofs Spatial_Proofs2 Spatial_Proofs4 Spatial_Proofs5 Free_Spec Free_Model Free_Proofs1 Free_Proofs2 Free_Proofs3 Jac_Model Jac_Spec Jac_Proofs1 Jac_Proofs2.
Import ListNotations.
Local Open Scope R_scope.

Lemma side_faces_app l l' : side_faces (l ++ l') = side_faces l ++ side_faces l'. Proof. apply flat_map_app. Qed.
Lemma in_side c side l : In c l -> In (c_face c side) (side_faces l).
Proof. intros I. apply in_flat_map. exists c. split; [exact I|destruct side; [right; now left|now left]]. Qed.
Lemma side_of id l : In id (side_faces l) -> exists c side, In c l /\ id = c_face c side.
Proof. intros I. apply in_flat_map in I as (c & I & [<-|[<-|[]]]); [exists c, false|exists c, true]; split; (exact I || reflexivity). Qed.

Section Mesh.
Variables (m : mesh) (pos : nat -> nat -> arr) (size : nat -> R) (positive : nat -> bool) (ghosts : list nat) (conf hang bcs : list con) (st0 : nat -> arr).
Let nd := m_dim m.
Let rs := m_row_size m.
Let b := m_basis m.
Let nfq := (rs ^ (nd - 1))%nat.
Let m' := fst (calc_jacobian m pos hang bcs st0).
Let st' := snd (calc_jacobian m pos hang bcs st0).
Hypothesis F : fits m' size positive ghosts.
Hypothesis AR : arranged m ghosts conf hang bcs.
Definition own (i f : nat) : arr := own_normal (m_dim m) (m_row_size m) (m_basis m) (m_elem m i) (pos i) f.

(** ** the mesh with the Jacobians set and its own connections *)
Definition mid : mesh := {| m_dim := m_dim m; m_row_size := m_row_size m; m_basis := m_basis m; car_cons := car_cons m; def_cons := def_cons m; car_elems := car_elems m; def_elems := def_elems m;
  m_elem := set_elem m pos; ref_faces := ref_faces m |}.
Definition st1 := set_faces m pos (elems m) st0.
Definition st2 := prolong_normals m st1.
Definition st3 := fold_left (fun st c => set_fine (m_dim m) (m_row_size m) c st) hang st2.
Definition st4 := fold_left (fun st c => set_ghost (m_dim m) (m_row_size m) c st) bcs st3.
Definition st5 := fold_left (fun st c => share (m_dim m) (m_row_size m) c st) (def_cons m) st4.
Lemma after_st : st' = st5.
Proof.
  unfold st', calc_jacobian. cbv zeta. fold st1. fold st2. fold st3. fold st4. pose proof (share_all_st (m_dim m) (m_row_size m) (def_cons m) st4 []) as E. destruct (share_all (m_dim m) (m_row_size m) (def_cons m) (st4, [])) as [s o]. exact E.
Qed.
Lemma after_mesh : m' = {| m_dim := m_dim m; m_row_size := m_row_size m; m_basis := m_basis m; car_cons := car_cons m; def_cons := snd (share_all (m_dim m) (m_row_size m) (def_cons m) (st4, []));
  car_elems := car_elems m; def_elems := def_elems m; m_elem := set_elem m pos; ref_faces := ref_faces m |}.
Proof. unfold m', calc_jacobian. cbv zeta. fold st1. fold st2. fold st3. fold st4. destruct (share_all (m_dim m) (m_row_size m) (def_cons m) (st4, [])) as [s o]. reflexivity. Qed.
Lemma mid_sides : side_faces (cons mid) = side_faces (cons m').
Proof.
  rewrite after_mesh. unfold cons. cbn [car_cons def_cons mid]. rewrite !side_faces_app. f_equal. symmetry. apply sides_by_face. apply (share_all_faces (m_dim m) (m_row_size m) (def_cons m) st4 []).
Qed.
Lemma set_face i : e_face (set_elem m pos i) = e_face (m_elem m i). Proof. unfold set_elem. now destruct (e_deformed (m_elem m i)). Qed.
Lemma set_size i : e_size (set_elem m pos i) = e_size (m_elem m i). Proof. unfold set_elem. now destruct (e_deformed (m_elem m i)). Qed.
Lemma set_deformed i : e_deformed (set_elem m pos i) = e_deformed (m_elem m i). Proof. unfold set_elem. destruct (e_deformed (m_elem m i)) eqn:E; [reflexivity|exact E]. Qed.
Lemma fits_mid : fits mid size positive ghosts.
Proof.
  pose proof mid_sides as S. rewrite after_mesh in S. pose proof F as F0. rewrite after_mesh in F0. destruct F0 as [F1 F2 F3 F4 F5 F6 F7 F8 F9]. unfold inner_faces, all_mortars, coarse_faces, elems, cons in *. cbn [m_dim m_row_size m_basis car_cons def_cons car_elems def_elems m_elem ref_faces mid] in *. constructor; try assumption.
  - intros c I. unfold cons in I. cbn [car_cons def_cons mid] in I. apply in_app_or in I as [I|I]; [apply F5; apply in_or_app; now left|].
    pose proof (share_all_faces (m_dim m) (m_row_size m) (def_cons m) st4 []) as E. cbn [map app] in E. apply (in_map (fun c => (c_face c, c_deformed c, c_dir c))) in I. rewrite <- E in I. apply in_map_iff in I as (c' & E' & I'). inversion E' as [[E1 E2 E3]]. apply F5. apply in_or_app. now right.
  - unfold inner_faces, all_mortars, coarse_faces, elems, cons in *. cbn [m_dim m_row_size m_basis car_cons def_cons car_elems def_elems m_elem ref_faces mid] in *. now rewrite S.
Qed.
Lemma mid_inner : inner_faces mid = inner_faces m.
Proof. unfold inner_faces. change (elems mid) with (elems m). apply flat_map_ext. intros i. unfold faces_of. cbn [m_dim m_elem mid]. now rewrite set_face. Qed.
Let R0 : (0 < rs)%nat. Proof. pose proof (fit_rows _ _ _ _ fits_mid) as H. cbn in H. unfold rs. lia. Qed.
Let N0 : (1 <= nd <= 3)%nat. Proof. exact (fit_dim _ _ _ _ fits_mid). Qed.

(** ** faces *)
Lemma own_of i f id : is_face m i f id -> In id (inner_faces m).
Proof. intros (I & K & <-). rewrite <- mid_inner. pose proof (face_in mid size positive ghosts fits_mid i f I K) as H. cbn [m_elem mid] in H. now rewrite set_face in H. Qed.
Lemma inner_is id : In id (inner_faces m) -> exists i f, is_face m i f id.
Proof. intros I. apply in_flat_map in I as (i & I & J). apply in_map_iff in J as (f & E & K). apply in_seq in K. exists i, f. repeat split; [exact I|lia|exact E]. Qed.
Lemma inner_coarse_side id : In id (inner_faces m) -> In id (side_faces (car_cons m)) \/ In id (side_faces (def_cons m)) \/ In id (coarse_faces m).
Proof. intros I. rewrite <- mid_inner in I. apply (inner_side mid size positive ghosts fits_mid) in I as [I|I]; [|now right; right]. unfold cons in I. rewrite side_faces_app in I. apply in_app_or in I as [I|I]; [now left|now right; left]. Qed.
Lemma car_def_apart id : In id (side_faces (car_cons m)) -> ~ In id (side_faces (def_cons m)).
Proof. apply app_apart. rewrite <- side_faces_app. exact (sides_nodup mid size positive ghosts fits_mid). Qed.
Lemma def_nodup : NoDup (side_faces (def_cons m)).
Proof. pose proof (sides_nodup mid size positive ghosts fits_mid) as H. unfold cons in H. rewrite side_faces_app in H. now apply nodup_app_right in H. Qed.
Lemma split_perm : Permutation (side_faces (def_cons m)) (side_faces conf ++ side_faces hang ++ side_faces bcs).
Proof. rewrite <- !side_faces_app. apply Permutation_flat_map, (ar_split _ _ _ _ _ AR). Qed.
Lemma split_nodup : NoDup (side_faces conf ++ side_faces hang ++ side_faces bcs).
Proof. exact (Permutation_NoDup split_perm def_nodup). Qed.
Lemma conf_hang id : In id (side_faces conf) -> ~ In id (side_faces hang).
Proof. intros H I. apply (app_apart _ _ _ split_nodup H). apply in_or_app. now left. Qed.
Lemma conf_bcs id : In id (side_faces conf) -> ~ In id (side_faces bcs).
Proof. intros H I. apply (app_apart _ _ _ split_nodup H). apply in_or_app. now right. Qed.
Lemma hang_nodup : NoDup (side_faces hang). Proof. pose proof split_nodup as H. apply nodup_app_right in H. now apply nodup_app_left in H. Qed.
Lemma bcs_nodup : NoDup (side_faces bcs). Proof. pose proof split_nodup as H. apply nodup_app_right in H. now apply nodup_app_right in H. Qed.
Lemma hang_bcs id : In id (side_faces hang) -> ~ In id (side_faces bcs). Proof. pose proof split_nodup as H. apply nodup_app_right in H. now apply app_apart. Qed.
Lemma split_def id : In id (side_faces (def_cons m)) <-> In id (side_faces conf) \/ In id (side_faces hang) \/ In id (side_faces bcs).
Proof.
  split.
  - intros I. apply (Permutation_in _ split_perm) in I. apply in_app_or in I as [I|I]; [now left|]. apply in_app_or in I as [I|I]; [now right; left|now right; right].
  - intros I. apply (Permutation_in _ (Permutation_sym split_perm)). apply in_or_app. destruct I as [I|[I|I]]; [now left|right; apply in_or_app; now left|right; apply in_or_app; now right].
Qed.
Lemma in_def c : In c conf \/ In c hang \/ In c bcs -> In c (def_cons m).
Proof. intros I. apply (Permutation_in _ (Permutation_sym (ar_split _ _ _ _ _ AR))). apply in_or_app. destruct I as [I|[I|I]]; [now left|right; apply in_or_app; now left|right; apply in_or_app; now right]. Qed.
Lemma in_cons c : In c (def_cons m) -> In c (cons mid). Proof. intros I. apply in_or_app. now right. Qed.
Lemma apart c : In c (def_cons m) -> c_face c false <> c_face c true. Proof. intros I. apply (sides_apart mid size positive ghosts fits_mid). now apply in_cons. Qed.
Lemma mortar_not_inner id : In id (all_mortars m) -> ~ In id (inner_faces m).
Proof. intros H I. rewrite <- mid_inner in I. exact (inner_mortar mid size positive ghosts fits_mid id I H). Qed.
Lemma coarse_is r : In r (ref_faces m) -> In (r_coarse r) (inner_faces m).
Proof. intros I. rewrite <- mid_inner. apply (coarse_inner mid size positive ghosts fits_mid). now apply (in_map r_coarse). Qed.
Lemma coarse_not_def r : In r (ref_faces m) -> ~ In (r_coarse r) (side_faces (def_cons m)).
Proof. intros I J. apply (side_coarse mid size positive ghosts fits_mid (r_coarse r)); [unfold cons; rewrite side_faces_app; apply in_or_app; now right|]. now apply (in_map r_coarse). Qed.

(** ** the states *)
Lemma scatter_faces e (a : nat -> arr) n st : (forall k l, (k < 2 * nd)%nat -> (l < 2 * nd)%nat -> e_face e k = e_face e l -> k = l) ->
  let st' := loop (2 * nd) (fun f st => fput st (e_face e f) (write n (a f) (st (e_face e f)))) st in
  (forall id, (forall f, (f < 2 * nd)%nat -> id <> e_face e f) -> st' id = st id) /\ forall f, (f < 2 * nd)%nat -> st' (e_face e f) = write n (a f) (st (e_face e f)).
Proof.
  intros J. cbv zeta. set (P := fun k (s : nat -> arr) => (forall id, (forall f, (f < k)%nat -> id <> e_face e f) -> s id = st id) /\ forall f, (f < k)%nat -> s (e_face e f) = write n (a f) (st (e_face e f))).
  match goal with |- context [loop ?n ?body ?s] => assert (L : (2 * nd <= 2 * nd -> P n (loop n body s))%nat); [apply (loop_inv (fun k s => (k <= 2 * nd)%nat -> P k s))|] end.
  - intros _. split; [reflexivity|intros; lia].
  - intros k s K IH LE. destruct (IH ltac:(lia)) as [A B]. split.
    + intros id H. rewrite fput_out by (apply H; lia). apply A. intros f L. apply H. lia.
    + intros f L. destruct (Nat.eq_dec f k) as [->|NE].
      * rewrite fput_in. f_equal. apply A. intros g G E. apply J in E; lia.
      * rewrite fput_out by (intros E; apply J in E; lia). apply B. lia.
  - apply L. lia.
Qed.
Lemma st1_spec : (forall id, ~ In id (inner_faces m) -> st1 id = st0 id) /\
  forall i f k, In i (elems m) -> (f < 2 * nd)%nat -> (k < nd * nfq)%nat -> st1 (e_face (m_elem m i) f) k = own i f k.
Proof.
  unfold st1, set_faces. set (step := fun st i => loop _ _ st).
  pose (P := fun (i : nat) (s t : nat -> arr) => forall f k, (f < 2 * nd)%nat -> (k < nd * nfq)%nat -> t (e_face (m_elem m i) f) k = own i f k).
  assert (INJ : forall i, In i (elems m) -> forall k l, (k < 2 * nd)%nat -> (l < 2 * nd)%nat -> e_face (m_elem m i) k = e_face (m_elem m i) l -> k = l).
  { intros i I. pose proof (face_inj mid size positive ghosts fits_mid i I) as H. cbn [m_elem mid] in H. rewrite set_face in H. exact H. }
  pose proof (fold_frame (fun (s : nat -> arr) k => s k) step (fun i => faces_of (m_dim m) (m_elem m i)) P (elems m)) as X.
  destruct (X) with (s := st0) as [X1 X2]; clear X.
  - intros i s k I K. unfold step. apply (scatter_faces (m_elem m i) _ _ s (INJ i I)). intros f L ->. apply K. apply in_map, in_seq. unfold nd in L. lia.
  - intros i s I f k L K. unfold step. destruct (scatter_faces (m_elem m i) (own_normal (m_dim m) (m_row_size m) (m_basis m) (m_elem m i) (pos i)) (nd * nfq) s (INJ i I)) as [_ E]. transitivity (write (nd * nfq) (own i f) (s (e_face (m_elem m i) f)) k); [exact (f_equal (fun a => a k) (E f L))|]. now rewrite write_in.
  - intros i s t s' t' I E E' H f k L K. rewrite <- (E' (e_face (m_elem m i) f)); [now apply H|]. apply in_map, in_seq. unfold nd in L. lia.
  - pose proof (inner_nodup mid size positive ghosts fits_mid) as H. rewrite mid_inner in H. exact H.
  - split; [exact X1|]. intros i f k I L K. exact (X2 i I f k L K).
Qed.
Lemma st1_own i f id k : is_face m i f id -> (k < nd * nfq)%nat -> st1 id k = own i f k.
Proof. intros (I & L & <-) K. now apply st1_spec. Qed.
Lemma st2_out id : ~ In id (all_mortars m) -> st2 id = st1 id.
Proof. intros H. exact (the_prolong_other mid size positive ghosts (euler (m_dim m)) fits_mid true st1 id H). Qed.
Lemma st2_mortar r k i f j q : In r (ref_faces m) -> (k < n_fine nd (r_stretch r))%nat -> is_face m i f (r_coarse r) -> (j < nd)%nat -> (q < nfq)%nat ->
  st2 (r_fine r k) (j * nfq + q)%nat = of_coarse m (own i f) (r_stretch r) k j q.
Proof.
  intros I K FC J Q. unfold st2, prolong_normals. set (step := fun s r => prolong_refined _ _ _ _ _ _ _ _ s).
  pose (P := fun (r : refined_face) (s t : nat -> arr) => forall k, (k < n_fine nd (r_stretch r))%nat -> t (r_fine r k) (j * nfq + q)%nat = face_dims nd rs (r_stretch r) (fun x => x * (1 + INR (Nat.b2n true))) (b_prolong b) k (var_of nfq j (s (r_coarse r))) q).
  pose proof (fold_frame (fun (s : nat -> arr) k => s k) step (touched m) P (ref_faces m)) as X.
  destruct (X) with (s := st1) as [_ X2]; clear X.
  - intros r' s k' _ K'. destruct (touched_out mid size positive ghosts fits_mid r' k' K') as [T1 T2]. now apply prolong_refined_other.
  - intros r' s I' k' K'. apply prolong_refined_value; try assumption; [intros; now apply (coarse_fine mid size positive ghosts fits_mid)|now apply (fine_inj mid size positive ghosts fits_mid)|lia].
  - intros r' s1 t1 s2 t2 I' E E' H k' K'. rewrite <- (E' (r_fine r' k')); [|right; apply in_map, in_seq; unfold nd in K'; lia]. rewrite H by exact K'. now rewrite (E (r_coarse r')) by now left.
  - exact (touched_nodup mid size positive ghosts fits_mid).
  - rewrite (X2 r I k K). unfold of_coarse. fold nd rs b nfq. cbn [Nat.b2n INR]. change (1 + 1) with 2.
    pose proof (face_dims_sum nd rs (r_stretch r) 2 (b_prolong b) k 1 (var_of nfq j (st1 (r_coarse r))) (fun _ => var_of nfq j (own i f)) (fun _ => 1) R0) as H.
    rewrite H; [cbn [rsum]; ring| |exact Q]. intros p Pq. cbn [rsum]. unfold var_of. rewrite (st1_own i f (r_coarse r) _ FC) by (unfold nfq; now apply entry_lt). ring.
Qed.
Lemma st3_out id : ~ In id (side_faces hang) -> st3 id = st2 id.
Proof. intros H. apply (steps_out (set_fine nd rs)); [|exact H]. intros c s i _ E. now apply fine_out. Qed.
Lemma st3_in c side : In c hang -> st3 (c_face c side) = set_fine nd rs c st2 (c_face c side).
Proof. intros I. apply (steps_in (set_fine nd rs)); [intros c' s i _ E; now apply fine_out|apply fine_local|exact hang_nodup|exact I]. Qed.
Lemma st4_out id : ~ In id (side_faces bcs) -> st4 id = st3 id.
Proof. intros H. apply (steps_out (set_ghost nd rs)); [|exact H]. intros c s i _ E. now apply ghost_out. Qed.
Lemma st4_in c side : In c bcs -> st4 (c_face c side) = set_ghost nd rs c st3 (c_face c side).
Proof. intros I. apply (steps_in (set_ghost nd rs)); [intros c' s i _ E; now apply ghost_out|apply ghost_local|exact bcs_nodup|exact I]. Qed.
Lemma st5_out id : ~ In id (side_faces (def_cons m)) -> st5 id = st4 id.
Proof. intros H. apply (steps_out (share nd rs)); [|exact H]. intros c s i. apply share_out. Qed.
Lemma st5_in c side : In c (def_cons m) -> st5 (c_face c side) = share nd rs c st4 (c_face c side).
Proof. intros I. apply (steps_in (share nd rs)); [apply share_out|apply share_local|exact def_nodup|exact I]. Qed.
(** faces that no deformed connection has *)
Lemma aside id : ~ In id (side_faces (def_cons m)) -> st5 id = st2 id.
Proof. intros H. rewrite st5_out by exact H. rewrite st4_out by (intros I; apply H, split_def; now right; right). apply st3_out. intros I. apply H, split_def. now right; left. Qed.

(** ** both sides before they are shared *)
Lemma hang_agree c : In c hang -> agree nd rs c st4.
Proof.
  intros I j q J Q. rewrite !st4_out by (apply hang_bcs; now apply in_side). rewrite !st3_in by exact I. apply fine_value; try assumption. apply apart, in_def. now right; left.
Qed.
Lemma bcs_agree c : In c bcs -> agree nd rs c st4.
Proof.
  intros I j q J Q. rewrite !st4_in by exact I. destruct (ar_bcs _ _ _ _ _ AR c I) as (_ & _ & D & S). apply ghost_value; try assumption. apply apart, in_def. now right; right.
Qed.
Lemma kept c side j q : In c (def_cons m) -> agree nd rs c st4 -> (j < nd)%nat -> (q < nfq)%nat -> st5 (c_face c side) (j * nfq + q)%nat = st4 (c_face c side) (j * nfq + q)%nat.
Proof. intros I A J Q. rewrite st5_in by exact I. apply share_keeps; try assumption. now apply apart. Qed.

(** ** shared normals *)
Lemma shared_0 c j q : In c (def_cons m) -> (j < nd)%nat -> (q < nfq)%nat -> flip_sign (c_dir c) false * st5 (c_face c false) (j * nfq + q)%nat = mean nd rs c st4 (j * nfq + q)%nat.
Proof. intros I J Q. rewrite st5_in by exact I. unfold nfq. rewrite share_0 by (try assumption; now apply apart). rewrite <- Rmult_assoc, flip_square. ring. Qed.
Lemma shared_1 c j q : In c (def_cons m) -> (j < nd)%nat -> (q < nfq)%nat -> flip_sign (c_dir c) true * fp_match nd rs nd (c_dir c) (st5 (c_face c true)) (j * nfq + q)%nat = mean nd rs c st4 (j * nfq + q)%nat.
Proof. intros I J Q. rewrite st5_in by exact I. unfold nfq. rewrite share_1 by assumption. rewrite <- Rmult_assoc, flip_square. ring. Qed.

(** ** coarse faces and mortar faces *)
Lemma coarse_final r i f k : In r (ref_faces m) -> is_face m i f (r_coarse r) -> (k < nd * nfq)%nat -> st5 (r_coarse r) k = own i f k.
Proof.
  intros I FC K. rewrite aside by now apply coarse_not_def. rewrite st2_out by (intros X; exact (mortar_not_inner _ X (coarse_is r I))). now apply st1_own.
Qed.
Lemma mortar_kept id j q : In id (all_mortars m) -> (j < nd)%nat -> (q < nfq)%nat -> st5 id (j * nfq + q)%nat = st2 id (j * nfq + q)%nat.
Proof.
  intros I J Q. destruct (in_dec Nat.eq_dec id (side_faces (def_cons m))) as [D|D]; [|now rewrite aside].
  apply split_def in D as [D|[D|D]]; apply side_of in D as (c & side & C & ->).
  - exfalso. apply (mortar_not_inner _ I), (ar_conf _ _ _ _ _ AR), C.
  - destruct (ar_hang _ _ _ _ _ AR c C) as [_ C1]. destruct side; [exfalso; exact (mortar_not_inner _ I C1)|].
    rewrite kept by first [assumption|apply in_def; now right; left|now apply hang_agree]. rewrite st4_out by (apply hang_bcs; now apply in_side). rewrite st3_in by exact C. rewrite fine_out by (apply apart, in_def; now right; left). reflexivity.
  - destruct (ar_bcs _ _ _ _ _ AR c C) as (C0 & C1 & _). exfalso. destruct side; [|exact (mortar_not_inner _ I C0)]. exact (mortar_ghost mid size positive ghosts fits_mid _ I C1).
Qed.
Lemma mortar_final r k i f j q : In r (ref_faces m) -> (k < n_fine nd (r_stretch r))%nat -> is_face m i f (r_coarse r) -> (j < nd)%nat -> (q < nfq)%nat ->
  st5 (r_fine r k) (j * nfq + q)%nat = of_coarse m (own i f) (r_stretch r) k j q.
Proof. intros I K FC J Q. rewrite mortar_kept by (try assumption; now apply (mortar_in mid size positive ghosts fits_mid)). now apply st2_mortar. Qed.
Variables (node w : nat -> R) (ratio : R).
Hypothesis B : b = basis_on rs node w ratio.
Lemma refined_final r j q : as_legendre rs node w -> In r (ref_faces m) -> (j < nd)%nat -> (q < nfq)%nat -> st5 (r_coarse r) (j * nfq + q)%nat =
  rsum (n_fine nd (r_stretch r)) (fun k => face_dims nd rs (r_stretch r) (fun x => x / 2) (b_restrict b) k (var_of nfq j (st5 (r_fine r k))) q).
Proof.
  intros LG I J Q. destruct (inner_is (r_coarse r) (coarse_is r I)) as (i & f & FC). rewrite (coarse_final r i f) by (try assumption; unfold nfq; now apply entry_lt).
  symmetry. transitivity (rsum (n_fine nd (r_stretch r)) (fun k => face_dims nd rs (r_stretch r) (fun x => x / 2) (b_restrict b) k (face_dims nd rs (r_stretch r) (fun x => x * 2) (b_prolong b) k (var_of nfq j (own i f))) q)).
  - apply rsum_ext. intros k K.
    pose proof (face_dims_sum nd rs (r_stretch r) (/ 2) (b_restrict b) k 1 (var_of nfq j (st5 (r_fine r k))) (fun _ => face_dims nd rs (r_stretch r) (fun x => x * 2) (b_prolong b) k (var_of nfq j (own i f))) (fun _ => 1) R0) as H. change (fun x : R => x * / 2) with (fun x => x / 2) in H.
    rewrite H; [cbn [rsum]; ring| |exact Q]. intros p Pq. cbn [rsum]. unfold var_of at 1. rewrite (mortar_final r k i f) by assumption. unfold of_coarse. fold nd rs b nfq. ring.
  - rewrite (undo_refined rs (b_restrict b) (b_prolong b)); [reflexivity|exact R0| |exact N0|exact Q]. rewrite B. intros v l L. now apply legendre_undo.
Qed.

(** ** faces of elements *)
Lemma match_onto d q : (q < nfq)%nat -> exists p, (p < nfq)%nat /\ forall n a j, (j < n)%nat -> fp_match nd rs n d a (j * nfq + p)%nat = a (j * nfq + q)%nat.
Proof.
  intros Q. destruct (transpose_shuffles nd rs d R0) as (t & T1 & T2), (flip_shuffles nd rs d R0) as (f & F1 & F2). fold nfq in T1, T2, F1, F2.
  assert (P : (f (t q) < nfq)%nat) by (apply F1; now apply T1). exists (f (t q)). split; [exact P|]. intros n a j J. unfold fp_match. rewrite F2 by assumption. rewrite (proj2 (F1 _ (proj1 (T1 q Q)))). rewrite T2 by (try assumption; now apply T1). now rewrite (proj2 (T1 q Q)).
Qed.
Hypothesis AG : agreeing m pos conf hang.
Lemma inner_final i f id j q : is_face m i f id -> (j < nd)%nat -> (q < nfq)%nat -> st5 id (j * nfq + q)%nat = own i f (j * nfq + q)%nat.
Proof.
  intros FI J Q. pose proof (own_of i f id FI) as I. assert (K : (j * nfq + q < nd * nfq)%nat) by (unfold nfq; now apply entry_lt).
  assert (NM : ~ In id (all_mortars m)) by (intros X; exact (mortar_not_inner _ X I)).
  destruct (in_dec Nat.eq_dec id (side_faces (def_cons m))) as [D|D]; [|rewrite aside, st2_out by assumption; now apply st1_own].
  apply split_def in D as [D|[D|D]]; pose proof D as D0; apply side_of in D as (c & side & C & E).
  - assert (V : forall s i f, is_face m i f (c_face c s) -> forall j q, (j < nd)%nat -> (q < nfq)%nat -> st4 (c_face c s) (j * nfq + q)%nat = own i f (j * nfq + q)%nat).
    { intros s i' f' FI' j' q' J' Q'. pose proof (own_of i' f' _ FI') as I'. rewrite st4_out by (apply conf_bcs; now apply in_side). rewrite st3_out by (apply conf_hang; now apply in_side). rewrite st2_out by (intros X; exact (mortar_not_inner _ X I')). apply st1_own; [exact FI'|]. unfold nfq. now apply entry_lt. }
    rewrite E in *. rewrite kept; [|apply in_def; now left| |exact J|exact Q].
    + now apply V.
    + destruct (inner_is _ (ar_conf _ _ _ _ _ AR c false C)) as (i0 & f0 & F0). destruct (inner_is _ (ar_conf _ _ _ _ _ AR c true C)) as (i1 & f1 & F1).
      intros j' q' J' Q'. fold nfq. rewrite (V false i0 f0 F0) by assumption. destruct (match_index nd rs (c_dir c) q' R0 Q') as (p & P & M). fold nfq in P, M. rewrite M by exact J'. rewrite (V true i1 f1 F1) by assumption. rewrite <- (M nd (own i1 f1) j' J'). exact (ag_conf _ _ _ _ AG c i0 f0 i1 f1 j' q' C F0 F1 J' Q').
  - destruct (ar_hang _ _ _ _ _ AR c C) as [C0 C1]. destruct side; [|rewrite E in NM; exfalso; exact (NM C0)]. rewrite E in *.
    assert (CD : In c (def_cons m)) by (apply in_def; now right; left).
    apply in_flat_map in C0 as (r & Ir & C0). apply in_map_iff in C0 as (k & Ek & Kk). apply in_seq in Kk. destruct (inner_is _ (coarse_is r Ir)) as (i0 & f0 & F0).
    destruct (match_onto (c_dir c) q Q) as (p & P & M). rewrite <- !(M nd _ j J).
    assert (Z : flip_sign (c_dir c) true * fp_match nd rs nd (c_dir c) (st5 (c_face c true)) (j * nfq + p)%nat = flip_sign (c_dir c) true * fp_match nd rs nd (c_dir c) (own i f) (j * nfq + p)%nat).
    { rewrite shared_1 by assumption. unfold nfq. rewrite mean_agree by (try assumption; now apply hang_agree). fold nfq.
      etransitivity; [|exact (ag_hang _ _ _ _ AG c r k i0 f0 i f j p C Ir ltac:(lia) (eq_sym Ek) F0 FI J P)]. f_equal.
      rewrite <- kept by (try assumption; now apply hang_agree). rewrite <- Ek. apply (mortar_final r k i0 f0); try assumption. unfold nd. lia. }
    apply (f_equal (Rmult (flip_sign (c_dir c) true))) in Z. rewrite <- !Rmult_assoc, !flip_square, !Rmult_1_l in Z. exact Z.
  - destruct (ar_bcs _ _ _ _ _ AR c C) as (C0 & C1 & _). destruct side; [exfalso; rewrite E in I; rewrite <- mid_inner in I; exact (inner_ghost mid size positive ghosts fits_mid _ I C1)|]. rewrite E in *.
    assert (CD : In c (def_cons m)) by (apply in_def; now right; right). rewrite kept by (try assumption; now apply bcs_agree). rewrite st4_in by exact C. rewrite ghost_out by now apply apart. rewrite st3_out by (intros X; exact (hang_bcs _ X D0)). rewrite st2_out by exact NM. now apply st1_own.
Qed.
(** ** everything closes *)
Lemma after_closed : as_legendre rs node w -> (forall i, In i (elems m) -> closed_element nd rs b (set_elem m pos i) (own i)) -> closed m' st'.
Proof.
  intros LG CE. rewrite after_st. rewrite after_mesh. constructor; cbn [m_dim m_row_size m_basis car_cons def_cons car_elems def_elems m_elem ref_faces]; fold nd rs b nfq.
  - intros i I. change (In i (elems m)) in I. intros j q J Q. rewrite <- (CE i I j q J Q). apply rsum_ext. intros d D. apply derivative_ext; [reflexivity|]. intros s S. fold nfq. rewrite set_face. apply inner_final; [|exact J|now apply foot_lt]. repeat split; [exact I|unfold nd in D; lia].
  - intros c j q I J Q. unfold cons in I. cbn [car_cons def_cons] in I. apply in_app_or in I as [I|I].
    + destruct (ar_car _ _ _ _ _ AR c I) as [D S]. unfold side_sign, con_normal. rewrite D, Rmult_1_l. destruct (S false) as [S0|S0].
      * destruct (inner_is _ S0) as (i & f & FI). rewrite (inner_final i f) by assumption. exact (ag_car _ _ _ _ AG c false i f j q I FI J Q).
      * apply in_flat_map in S0 as (r & Ir & C0). apply in_map_iff in C0 as (k & Ek & Kk). apply in_seq in Kk. destruct (inner_is _ (coarse_is r Ir)) as (i0 & f0 & F0). rewrite <- Ek. rewrite (mortar_final r k i0 f0) by (try assumption; unfold nd; lia). exact (ag_mortar _ _ _ _ AG c false r k i0 f0 j q I Ir ltac:(lia) (eq_sym Ek) F0 J Q).
    + destruct (share_all_out nd rs (def_cons m) def_nodup st4 [] c I) as [[]|(c0 & I0 & ->)]. unfold with_normal. cbn [c_face c_deformed c_dir c_normal]. unfold con_normal, side_sign. cbn [c_face c_deformed c_dir c_normal]. rewrite (ar_def _ _ _ _ _ AR c0 I0). fold (flip_sign (c_dir c0) false). rewrite <- Rmult_assoc, flip_square, Rmult_1_l. reflexivity.
  - intros c j q I J Q. unfold cons in I. cbn [car_cons def_cons] in I. apply in_app_or in I as [I|I].
    + destruct (ar_car _ _ _ _ _ AR c I) as [D S]. unfold side_sign, con_normal. rewrite D, Rmult_1_l. destruct (S true) as [S0|S0].
      * destruct (inner_is _ S0) as (i & f & FI). rewrite (inner_final i f) by assumption. exact (ag_car _ _ _ _ AG c true i f j q I FI J Q).
      * apply in_flat_map in S0 as (r & Ir & C0). apply in_map_iff in C0 as (k & Ek & Kk). apply in_seq in Kk. destruct (inner_is _ (coarse_is r Ir)) as (i0 & f0 & F0). rewrite <- Ek. rewrite (mortar_final r k i0 f0) by (try assumption; unfold nd; lia). exact (ag_mortar _ _ _ _ AG c true r k i0 f0 j q I Ir ltac:(lia) (eq_sym Ek) F0 J Q).
    + destruct (share_all_out nd rs (def_cons m) def_nodup st4 [] c I) as [[]|(c0 & I0 & ->)]. unfold with_normal. cbn [c_face c_deformed c_dir c_normal]. unfold con_normal, side_sign. cbn [c_face c_deformed c_dir c_normal]. rewrite (ar_def _ _ _ _ _ AR c0 I0). fold (flip_sign (c_dir c0) false) (flip_sign (c_dir c0) true). fold st5. rewrite shared_0 by assumption. rewrite <- shared_1 by assumption. rewrite <- Rmult_assoc, flip_square. ring.
  - intros r j q I J Q. now apply refined_final.
Qed.
End Mesh.
