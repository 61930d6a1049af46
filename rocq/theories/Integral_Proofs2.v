(** Integrals over meshes. *)
From Coq Require Import Reals List Arith Lia Lra.
From Coquelicot Require Import Coquelicot.
From Verif Require Import Outcome ListUtil Loop RSum Tensor_Model Tensor_Spec Tensor_Proofs Basis_Spec Basis_Proofs Quad_Model Quad_Spec Quad_Proofs Connection_Model Connection_Spec Spatial_Model Spatial_Spec Spatial_Proofs2 Spatial_Proofs5 Free_Spec Jac_Model Jac_Spec
  Jac_Proofs1 Jac_Proofs3 Jac_Proofs4 Jac_Proofs5 Jac_Proofs7 Jac_Proofs8 Integral_Model Integral_Spec Integral_Proofs1.
Import ListNotations.
Local Open Scope R_scope.

(** ** the total *)
Lemma field_total fuel m n_var f : (0 < m_row_size m)%nat -> (m_dim m <= fuel)%nat -> (forall i q, In i (elems m) -> (q < m_row_size m ^ m_dim m)%nat -> length (f i q) = n_var) ->
  exists r, integral_field fuel m n_var f = Ok r /\ length r = n_var /\ forall v, (v < n_var)%nat ->
    nth v r 0 = lsum (fun i => rsum (m_row_size m ^ m_dim m) (fun q => outer_power (m_row_size m) (b_weight (m_basis m)) (m_dim m) q * e_size (m_elem m i) ^ m_dim m * nth v (f i q) 0 * determinant_at (m_elem m i) q)) (elems m).
Proof.
  intros RS FU LE. unfold integral_field. destruct (pow_outer_main (m_row_size m) (b_weight (m_basis m)) (m_dim m) fuel RS FU) as (weights & -> & W). cbn [bind].
  apply adds_start. eapply adds_ext; [apply (adds_fold n_var _ (fun i v => lsum (fun q => weights q * e_size (m_elem m i) ^ m_dim m * nth v (f i q) 0 * determinant_at (m_elem m i) q) (seq 0 (m_row_size m ^ m_dim m))))|].
  - intros i I. apply (adds_fold n_var _ (fun q v => weights q * e_size (m_elem m i) ^ m_dim m * nth v (f i q) 0 * determinant_at (m_elem m i) q)). intros q Q. apply in_seq in Q. rewrite (LE i q I) by lia.
    apply (vars_adds n_var (f i q) (fun x => weights q * e_size (m_elem m i) ^ m_dim m * x * determinant_at (m_elem m i) q)). apply LE; [exact I|lia].
  - intros v V. cbv beta. apply lsum_ext. intros i I. rewrite lsum_seq. apply rsum_ext. intros q Q. now rewrite W.
Qed.

(** ** the map of an element *)
Lemma moved_setx : moved = setx. Proof. reflexivity. Qed.
Lemma tang_derivative n v D r c y : (2 <= n <= 3)%nat -> derivative_of n v D -> (r < n)%nat -> (c < n)%nat -> D r c y = tang n (v r) c y.
Proof.
  intros N H RR C. apply (uniqueness_limite (fun t => multilinear n (v r) (moved y c t)) (y c)); [now apply H|]. rewrite moved_setx. intros e E. exists (mkposreal 1 Rlt_0_1). intros h H0 H1.
  rewrite (multi_linear n (v r) y c (y c + h)), (multi_linear n (v r) y c (y c)) by assumption. replace (_ - tang n (v r) c y) with 0 by (field; exact H0). now rewrite Rabs_R0.
Qed.
Lemma det_eq n a : (2 <= n <= 3)%nat -> determinant n a = det n a.
Proof. intros N. destruct n as [|[|[|[|n]]]]; try lia; unfold determinant, det, det2; ring. Qed.
Lemma tang_const n v c y t : tang n v c (setx y c t) = tang n v c y.
Proof. apply tang_ext. intros k K NE. unfold setx. apply Nat.eqb_neq in NE. now rewrite NE. Qed.
Lemma tang_poly n v y l c : (2 <= n <= 3)%nat -> (c < n)%nat -> (l < n)%nat -> poly (if (c =? l)%nat then 1 else 2) (fun t => tang n v c (setx y l t)).
Proof.
  intros N C L. destruct (Nat.eqb_spec c l) as [->|NE].
  - apply (poly_ext 1 (fun _ => tang n v l y)); [apply poly_const|]. intros t. symmetry. apply tang_const.
  - apply (poly_ext 2 (fun t => tang n v c (setx y l 0) + (tang n v c (setx y l 1) - tang n v c (setx y l 0)) * t)); [apply linear_poly; lia|]. intros t. symmetry. now apply tang_linear.
Qed.
Lemma det_poly n v y l : (2 <= n <= 3)%nat -> (l < n)%nat -> poly n (fun t => det n (fun r c => tang n (v r) c (setx y l t))).
Proof.
  intros N L. assert (T : forall r c, (c < n)%nat -> poly (if (c =? l)%nat then 1 else 2) (fun t => tang n (v r) c (setx y l t))) by (intros; now apply tang_poly).
  assert (M : forall a b f g, poly a f -> poly (S b) g -> poly (a + b) (fun x => f x * g x)) by (intros; now apply poly_mult).
  destruct n as [|[|[|[|n]]]]; try lia; unfold det, det2.
  - destruct l as [|[|l]]; try lia; pose proof (fun r => T r 0%nat ltac:(lia)) as T0; pose proof (fun r => T r 1%nat ltac:(lia)) as T1; cbn [Nat.eqb] in T0, T1; apply poly_minus.
    + exact (M 1 1 _ _ (T0 0) (T1 1))%nat.
    + exact (M 2 0 _ _ (T1 0) (T0 1))%nat.
    + exact (M 2 0 _ _ (T0 0) (T1 1))%nat.
    + exact (M 1 1 _ _ (T1 0) (T0 1))%nat.
  - assert (P3 : forall r0 r1 r2 c0 c1 c2, (c0 < 3)%nat -> (c1 < 3)%nat -> (c2 < 3)%nat -> c0 <> c1 -> c0 <> c2 -> c1 <> c2 -> poly 3 (fun t => tang 3 (v r0) c0 (setx y l t) * (tang 3 (v r1) c1 (setx y l t) * tang 3 (v r2) c2 (setx y l t)))).
    { intros r0 r1 r2 c0 c1 c2 C0 C1 C2 N1 N2 N3. assert (L3 : c0 = l \/ c1 = l \/ c2 = l) by lia. pose proof (T r0 c0 C0) as T0. pose proof (T r1 c1 C1) as T1. pose proof (T r2 c2 C2) as T2.
      destruct L3 as [E|[E|E]]; subst; rewrite ?Nat.eqb_refl in *; repeat match goal with H : context [(?a =? ?b)%nat] |- _ => replace (a =? b)%nat with false in H by (symmetry; apply Nat.eqb_neq; lia) end.
      - exact (M 1 2 _ _ T0 (M 2 1 _ _ T1 T2))%nat.
      - exact (M 2 1 _ _ T0 (M 1 1 _ _ T1 T2))%nat.
      - exact (M 2 1 _ _ T0 (M 2 0 _ _ T1 T2))%nat. }
    assert (SUB : forall r0 r1 r2 c0 c1 c2, (c0 < 3)%nat -> (c1 < 3)%nat -> (c2 < 3)%nat -> c0 <> c1 -> c0 <> c2 -> c1 <> c2 ->
      poly 3 (fun t => tang 3 (v r0) c0 (setx y l t) * (tang 3 (v r1) c1 (setx y l t) * tang 3 (v r2) c2 (setx y l t) - tang 3 (v r1) c2 (setx y l t) * tang 3 (v r2) c1 (setx y l t)))).
    { intros. apply (poly_ext 3 (fun t => tang 3 (v r0) c0 (setx y l t) * (tang 3 (v r1) c1 (setx y l t) * tang 3 (v r2) c2 (setx y l t)) - tang 3 (v r0) c0 (setx y l t) * (tang 3 (v r1) c2 (setx y l t) * tang 3 (v r2) c1 (setx y l t)))); [apply poly_minus; apply P3; auto|intros; ring]. }
    apply poly_plus; [apply poly_minus|]; apply SUB; lia.
Qed.
Definition jdet (n : nat) (v : nat -> arr) (y : nat -> R) : R := det n (fun r c => tang n (v r) c y).
Lemma jdet_ext n v y y' : (2 <= n <= 3)%nat -> (forall l, (l < n)%nat -> y l = y' l) -> jdet n v y = jdet n v y'.
Proof. intros N E. unfold jdet. rewrite <- !det_eq by exact N. apply det_ext; [exact N|]. intros r c RR C. apply tang_ext. auto. Qed.
Lemma poly_is d f : poly d f -> exists c, forall x, f x = polynomial d c x. Proof. apply poly_is_polynomial. Qed.
Lemma product_in_each n rs v F : (2 <= n <= 3)%nat -> (2 <= rs)%nat -> poly_in_each n (2 * rs - n + 1) F -> poly_in_each n (2 * rs) (fun y => F y * jdet n v y).
Proof.
  intros N RS (E & P). split; [intros y y' H; f_equal; [now apply E|now apply jdet_ext]|]. intros y l L. apply poly_is. destruct (P y l L) as (c & C). replace (2 * rs)%nat with ((2 * rs - n + 1) + (n - 1))%nat by lia.
  apply poly_mult; [apply (poly_ext _ (polynomial (2 * rs - n + 1) c)); [apply poly_of_coeffs|intros; now rewrite C]|]. replace (S (n - 1)) with n by lia. unfold jdet. rewrite moved_setx. now apply det_poly.
Qed.
Lemma det_scaled n s a : (2 <= n <= 3)%nat -> s <> 0 -> s ^ n * determinant n (fun r c => a r c / s) = det n a.
Proof. intros N S. destruct n as [|[|[|[|n]]]]; try lia; unfold determinant, det, det2; cbn [pow]; field; exact S. Qed.

Section Mesh.
Variables (m : mesh) (pos : nat -> nat -> arr) (node w : nat -> R) (ratio : R) (v : nat -> nat -> arr).
Let nd := m_dim m.
Let rs := m_row_size m.
Hypothesis N : (2 <= nd <= 3)%nat.
Hypothesis RS : (2 <= rs)%nat.
Hypothesis B : m_basis m = basis_on rs node w ratio.
Hypothesis LG : as_legendre rs node w.
Hypothesis BC : by_corners m node pos v.
Hypothesis SZ : forall i, In i (elems m) -> e_size (m_elem m i) <> 0.
Lemma volume_at i q : In i (elems m) -> (q < rs ^ nd)%nat -> e_size (m_elem m i) ^ nd * determinant_at (set_elem m pos i) q = jdet nd (v i) (here nd rs node q).
Proof.
  intros I Q. destruct BC as (PO & CA). unfold determinant_at, set_elem. destruct (e_deformed (m_elem m i)) eqn:DE.
  - cbn [e_deformed e_det]. fold nd rs. unfold set_det, jdet. rewrite <- (det_scaled nd (e_size (m_elem m i))) by (try exact N; now apply SZ). f_equal. apply det_ext; [exact N|]. intros r c RR C.
    rewrite B. apply (jacobian_is nd rs node w ratio (e_size (m_elem m i)) (v i) (pos i) N RS (proj1 (proj1 LG))); try assumption. intros r' q' RR' Q'. rewrite (PO i r' q' I DE RR' Q'). now apply position_multilinear.
  - rewrite DE. destruct (CA i I DE) as (x & V). rewrite Rmult_1_r. unfold jdet. set (s := e_size (m_elem m i)) in *. assert (T : forall r c, (r < nd)%nat -> tang nd (v i r) c (here nd rs node q) = if (r =? c)%nat then s else 0) by (intros r c RR; apply (flat_tang nd (v i r) (x r)); [exact N|exact RR|]; intros u U; now apply V).
    assert (H : nd = 2%nat \/ nd = 3%nat) by lia. clearbody nd. destruct H as [-> | ->]; unfold det, det2; rewrite !T by lia; cbn; ring.
Qed.
Lemma field_exact fuel hang bcs st n_var f F : (nd <= fuel)%nat ->
  (forall i q, In i (elems m) -> (q < rs ^ nd)%nat -> length (f i q) = n_var /\ forall k, (k < n_var)%nat -> nth k (f i q) 0 = F i k (fun l => node (digit rs nd l q))) ->
  (forall i k, In i (elems m) -> (k < n_var)%nat -> poly_in_each nd (2 * rs - nd + 1) (F i k)) ->
  exists r, integral_field fuel (fst (calc_jacobian m pos hang bcs st)) n_var f = Ok r /\ length r = n_var /\ forall k, (k < n_var)%nat -> nth k r 0 = lsum (fun i => cube_integral nd (fun y => F i k y * jdet nd (v i) y)) (elems m).
Proof.
  intros FU FV PF. set (m' := fst (calc_jacobian m pos hang bcs st)).
  assert (EM : m_dim m' = nd /\ m_row_size m' = rs /\ m_basis m' = m_basis m /\ elems m' = elems m /\ m_elem m' = set_elem m pos) by (unfold m', calc_jacobian; destruct (share_all _ _ _ _); auto).
  destruct EM as (E1 & E2 & E3 & E4 & E5). destruct (field_total fuel m' n_var f) as (r & E & L & T); rewrite ?E1, ?E2, ?E4; try lia.
  - intros i q I Q. now apply FV.
  - exists r. split; [exact E|]. split; [exact L|]. intros k K. rewrite (T k K). rewrite E1, E2, E3, E4, E5. apply lsum_ext. intros i I. rewrite <- (rule_cube rs node w (2 * rs) ltac:(lia) (proj2 LG) nd); [|apply product_in_each; auto].
    apply rsum_ext. intros q Q. rewrite B. cbn [b_weight basis_on]. rewrite !Rmult_assoc. f_equal. rewrite (proj2 (FV i q I Q)) by exact K. rewrite set_size. pose proof (volume_at i q I Q) as VA. unfold here in VA. rewrite <- VA. ring.
Qed.
End Mesh.

(** the area of a quadrilateral *)
Lemma trapezoid : integrates 2 INR (fun _ => 1 / 2) 2.
Proof. intros c. unfold polynomial, integral. cbn. field. Qed.
Lemma area_shoelace v : cube_integral 2 (fun y => 1 * jdet 2 v y) = shoelace v.
Proof.
  rewrite <- (rule_cube 2 INR (fun _ => 1 / 2) 2 ltac:(lia) trapezoid 2).
  - unfold shoelace, jdet, det, det2, tang, outer_power, multilinear, vertex_weight, setx. cbn. field.
  - split; [intros y y' E; f_equal; apply jdet_ext; [lia|exact E]|]. intros y l L. apply poly_is. unfold jdet. rewrite moved_setx. apply poly_scal. apply det_poly; [lia|exact L].
Qed.
Lemma const_in_each n d x : (0 < d)%nat -> poly_in_each n d (fun _ => x).
Proof. intros D. split; [reflexivity|]. intros y l L. apply poly_is. apply (poly_weaken_le 1); [lia|apply poly_const]. Qed.

(** the change of the integrals *)
Lemma nth_of_map (f : nat -> R) n v : (v < n)%nat -> nth v (map f (seq 0 n)) 0 = f v.
Proof. intros V. rewrite (nth_indep _ 0 (f 0%nat)) by (rewrite map_length, seq_length; exact V). rewrite map_nth, seq_nth by exact V. reflexivity. Qed.
Lemma change_main fuel m n before after r0 r1 v : (0 < m_row_size m)%nat -> (m_dim m <= fuel)%nat -> (v < n)%nat ->
  (forall i q, In i (elems m) -> (q < m_row_size m ^ m_dim m)%nat -> e_tss (m_elem m i) q = 1) ->
  integral_field fuel m n (fun i q => map (fun v => before i (v * m_row_size m ^ m_dim m + q)%nat) (seq 0 n)) = Ok r0 ->
  integral_field fuel m n (fun i q => map (fun v => after i (v * m_row_size m ^ m_dim m + q)%nat) (seq 0 n)) = Ok r1 ->
  nth v r1 0 - nth v r0 0 = change m before after v.
Proof.
  intros RS FU V TS E0 E1.
  assert (T : forall s r, integral_field fuel m n (fun i q => map (fun v => s i (v * m_row_size m ^ m_dim m + q)%nat) (seq 0 n)) = Ok r ->
    nth v r 0 = lsum (fun i => rsum (m_row_size m ^ m_dim m) (fun q => outer_power (m_row_size m) (b_weight (m_basis m)) (m_dim m) q * e_size (m_elem m i) ^ m_dim m * s i (v * m_row_size m ^ m_dim m + q)%nat * determinant_at (m_elem m i) q)) (elems m)).
  { intros s r E. destruct (field_total fuel m n (fun i q => map (fun v => s i (v * m_row_size m ^ m_dim m + q)%nat) (seq 0 n)) RS FU) as (r' & E' & _ & T); [intros; now rewrite map_length, seq_length|].
    rewrite E in E'. injection E' as <-. rewrite (T v V). apply lsum_ext. intros i I. apply rsum_ext. intros q Q. rewrite nth_of_map by exact V. reflexivity. }
  rewrite (T _ _ E0), (T _ _ E1). match goal with |- lsum ?f ?l - lsum ?g _ = _ => replace (lsum f l - lsum g l) with (lsum f l + lsum (fun i => -1 * g i) l) by (rewrite lsum_scal; ring) end.
  rewrite <- lsum_plus. unfold change. apply lsum_ext. intros i I. unfold amount, quad. rewrite <- rsum_scal, <- rsum_plus, <- rsum_scal. apply rsum_ext. intros q Q.
  replace ((v * m_row_size m ^ m_dim m + q) mod m_row_size m ^ m_dim m)%nat with q by (symmetry; rewrite Nat.add_comm, Nat.mod_add by lia; now apply Nat.mod_small). rewrite (TS i q I Q). unfold determinant_at. destruct (e_deformed (m_elem m i)); field.
Qed.
