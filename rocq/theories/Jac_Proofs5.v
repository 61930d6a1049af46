(** Elements that are determined by their vertices: normals in and on them; solid elements close. *)
From Coq Require Import Reals List Arith Lia Lra FunctionalExtensionality.
From Verif Require Import Outcome RSum Tensor_Model Tensor_Spec Tensor_Proofs Row_Model Row_Spec Row_Proofs Connection_Model Basis_Model Basis_Spec Basis_Proofs Quad_Model Quad_Spec Quad_Proofs Spatial_Model Spatial_Spec Spatial_Proofs Spatial_Proofs2 Spatial_Proofs3 Spatial_Proofs4 Free_Spec Free_Proofs1 Free_Proofs4 Jac_Model Jac_Spec Jac_Proofs2 Jac_Proofs4.
Import ListNotations.
Local Open Scope R_scope.

(** ** multilinear functions *)
Definition setx (x : nat -> R) (c : nat) (t : R) (k : nat) : R := if (k =? c)%nat then t else x k.
Definition tang (nd : nat) (v : arr) (c : nat) (x : nat -> R) : R := multilinear nd v (setx x c 1) - multilinear nd v (setx x c 0).
Lemma multi2 v : exists c0 c1 c2 c3, forall x, multilinear 2 v x = c0 + c1 * x 0%nat + c2 * x 1%nat + c3 * x 0%nat * x 1%nat.
Proof.
  exists (v 0%nat), (v 2%nat - v 0%nat), (v 1%nat - v 0%nat), (v 3%nat - v 2%nat - v 1%nat + v 0%nat). intros x. unfold multilinear, vertex_weight. cbn. ring.
Qed.
Lemma multi3 v : exists c0 c1 c2 c3 c4 c5 c6 c7, forall x, multilinear 3 v x = c0 + c1 * x 0%nat + c2 * x 1%nat + c3 * x 2%nat + c4 * x 0%nat * x 1%nat + c5 * x 0%nat * x 2%nat + c6 * x 1%nat * x 2%nat + c7 * x 0%nat * x 1%nat * x 2%nat.
Proof.
  exists (v 0%nat), (v 4%nat - v 0%nat), (v 2%nat - v 0%nat), (v 1%nat - v 0%nat), (v 6%nat - v 4%nat - v 2%nat + v 0%nat), (v 5%nat - v 4%nat - v 1%nat + v 0%nat), (v 3%nat - v 2%nat - v 1%nat + v 0%nat),
    (v 7%nat - v 6%nat - v 5%nat - v 3%nat + v 4%nat + v 2%nat + v 1%nat - v 0%nat). intros x. unfold multilinear, vertex_weight. cbn. ring.
Qed.
(** linear in every coordinate *)
Lemma multi_linear nd v x c t : (2 <= nd <= 3)%nat -> (c < nd)%nat -> multilinear nd v (setx x c t) = multilinear nd v (setx x c 0) + tang nd v c x * t.
Proof.
  intros N C. assert (H : nd = 2%nat \/ nd = 3%nat) by lia. unfold tang. destruct H as [-> | ->].
  - destruct (multi2 v) as (c0 & c1 & c2 & c3 & E). rewrite !E. destruct c as [|[|c]]; [| |lia]; unfold setx; cbn [Nat.eqb]; ring.
  - destruct (multi3 v) as (c0 & c1 & c2 & c3 & c4 & c5 & c6 & c7 & E). rewrite !E. destruct c as [|[|[|c]]]; [| | |lia]; unfold setx; cbn [Nat.eqb]; ring.
Qed.
Lemma tang_linear nd v x c d t : (2 <= nd <= 3)%nat -> (c < nd)%nat -> (d < nd)%nat -> c <> d -> tang nd v c (setx x d t) = tang nd v c (setx x d 0) + (tang nd v c (setx x d 1) - tang nd v c (setx x d 0)) * t.
Proof.
  intros N C D NE. assert (H : nd = 2%nat \/ nd = 3%nat) by lia. unfold tang. destruct H as [-> | ->].
  - destruct (multi2 v) as (c0 & c1 & c2 & c3 & E). rewrite !E. destruct c as [|[|c]], d as [|[|d]]; try lia; unfold setx; cbn [Nat.eqb]; ring.
  - destruct (multi3 v) as (c0 & c1 & c2 & c3 & c4 & c5 & c6 & c7 & E). rewrite !E. destruct c as [|[|[|c]]], d as [|[|[|d]]]; try lia; unfold setx; cbn [Nat.eqb]; ring.
Qed.
Lemma tang_ext nd v x x' c : (forall k, (k < nd)%nat -> k <> c -> x k = x' k) -> tang nd v c x = tang nd v c x'.
Proof. intros E. unfold tang. f_equal; apply multilinear_ext; try reflexivity; intros k K; unfold setx; destruct (Nat.eqb_spec k c); auto. Qed.

(** ** the positions of the points *)
Lemma position_multilinear nd rs node vert q : (2 <= nd <= 3)%nat -> position nd rs node vert (fun _ => 0) q = multilinear nd vert (fun d => node (digit rs nd d q)).
Proof.
  intros N. assert (H : nd = 2%nat \/ nd = 3%nat) by lia. destruct H as [-> | ->].
  - transitivity (multilinear 2 vert (fun d => node ((q / rs ^ (2 - d - 1)) mod rs)%nat)).
    + set (X := fun d => node ((q / rs ^ (2 - d - 1)) mod rs)%nat). unfold position. cbn [seq rev app fold_left]. change (node ((q / rs ^ (2 - 1 - 1)) mod rs)%nat) with (X 1%nat). change (node ((q / rs ^ (2 - 0 - 1)) mod rs)%nat) with (X 0%nat).
      generalize X. clear X. intros X. set (nfq := (rs ^ 2 / rs)%nat). generalize (face_qpoint 2 rs q 1) (face_qpoint 2 rs q 0). intros. unfold multilinear, vertex_weight. cbn. ring.
    + apply multilinear_ext; [reflexivity|]. intros k K. unfold digit. do 4 f_equal. lia.
  - transitivity (multilinear 3 vert (fun d => node ((q / rs ^ (3 - d - 1)) mod rs)%nat)).
    + set (X := fun d => node ((q / rs ^ (3 - d - 1)) mod rs)%nat). unfold position. cbn [seq rev app fold_left]. change (node ((q / rs ^ (3 - 2 - 1)) mod rs)%nat) with (X 2%nat). change (node ((q / rs ^ (3 - 1 - 1)) mod rs)%nat) with (X 1%nat). change (node ((q / rs ^ (3 - 0 - 1)) mod rs)%nat) with (X 0%nat).
      generalize X. clear X. intros X. set (nfq := (rs ^ 3 / rs)%nat). generalize (face_qpoint 3 rs q 2) (face_qpoint 3 rs q 1) (face_qpoint 3 rs q 0). intros. unfold multilinear, vertex_weight. cbn. ring.
    + apply multilinear_ext; [reflexivity|]. intros k K. unfold digit. do 4 f_equal. lia.
Qed.

(** ** cofactors *)
Definition cof (nd : nat) (v : nat -> arr) (s : R) (d j : nat) (x : nat -> R) : R := determinant nd (unit_col (fun r c => tang nd (v r) c x / s) d j).
Lemma det_ext nd a a' : (2 <= nd <= 3)%nat -> (forall r c, (r < nd)%nat -> (c < nd)%nat -> a r c = a' r c) -> determinant nd a = determinant nd a'.
Proof. intros N E. assert (H : nd = 2%nat \/ nd = 3%nat) by lia. destruct H as [-> | ->]; unfold determinant; now rewrite !E by lia. Qed.
Lemma unit_ext nd a a' d j : (2 <= nd <= 3)%nat -> (forall r c, (r < nd)%nat -> (c < nd)%nat -> c <> d -> a r c = a' r c) -> determinant nd (unit_col a d j) = determinant nd (unit_col a' d j).
Proof. intros N E. apply det_ext; [exact N|]. intros r c R C. unfold unit_col. destruct (Nat.eqb_spec c d); auto. Qed.
Lemma cof_ext nd v s d j x x' : (2 <= nd <= 3)%nat -> (forall k, (k < nd)%nat -> x k = x' k) -> cof nd v s d j x = cof nd v s d j x'.
Proof. intros N E. unfold cof. apply unit_ext; [exact N|]. intros r c R C NE. f_equal. apply tang_ext. auto. Qed.

Section Element.
Variables (nd rs : nat) (node w : nat -> R) (ratio size : R) (v pos : nat -> arr).
Hypotheses (N : (2 <= nd <= 3)%nat) (RS : (2 <= rs)%nat) (D : distinct rs node).
Let b := basis_on rs node w ratio.
Definition here (q : nat) (d : nat) : R := node (digit rs nd d q).
Hypothesis P : forall r q, (r < nd)%nat -> (q < rs ^ nd)%nat -> pos r q = multilinear nd (v r) (here q).
Lemma jacobian_is r c q : (r < nd)%nat -> (c < nd)%nat -> (q < rs ^ nd)%nat -> jacobian nd rs b size pos r c q = tang nd (v r) c (here q) / size.
Proof.
  intros RR C Q. unfold jacobian. f_equal. rewrite diff_at by lia. rewrite (rsum_ext rs _ (fun i => py_derivative rs node (digit rs nd c q) i * (multilinear nd (v r) (setx (here q) c 0) + tang nd (v r) c (here q) * node i))).
  - apply diff_linear; [exact RS|exact D|apply digit_lt; lia].
  - intros i I. change (b_diff b) with (py_derivative rs node). f_equal. rewrite P; [|exact RR|apply along_lt; (assumption || lia)]. rewrite <- multi_linear by assumption. apply multilinear_ext; [reflexivity|]. intros k K. unfold here, setx. rewrite digit_along by (assumption || lia). now destruct (k =? c)%nat.
Qed.
Lemma nrml_is d j q : (d < nd)%nat -> (j < nd)%nat -> (q < rs ^ nd)%nat -> set_nrml nd rs b size pos ((d * nd + j) * rs ^ nd + q)%nat = cof nd v size d j (here q).
Proof.
  intros DD J Q. unfold set_nrml. rewrite flat_div, flat_mod by exact Q. rewrite flat_div, flat_mod by exact J. apply unit_ext; [exact N|]. intros r c RR C _. now apply jacobian_is.
Qed.
(** the point of a face *)
Definition there (d s f : nat) (k : nat) : R := if (k =? d)%nat then INR s else node (digit rs (nd - 1) (drop d k) f).
Lemma face_is d s j f : (d < nd)%nat -> (s < 2)%nat -> (f < rs ^ (nd - 1))%nat -> set_face_nrml nd rs b size pos (2 * d + s) (j * rs ^ (nd - 1) + f)%nat = cof nd v size d j (there d s f).
Proof.
  intros DD S F. unfold set_face_nrml. rewrite flat_div, flat_mod by exact F. replace ((2 * d + s) / 2)%nat with d by (apply (Nat.div_unique _ 2 d s); lia). replace ((2 * d + s) mod 2)%nat with s by (apply (Nat.mod_unique _ 2 d s); lia).
  apply unit_ext; [exact N|]. intros r c RR C NE. rewrite bound_at by lia.
  set (T := fun t => tang nd (v r) c (setx (there d s f) d t)).
  rewrite (rsum_ext rs _ (fun i => py_interpolate rs node i (INR s) * (T 0 + (T 1 - T 0) * node i) * / size)).
  - rewrite rsum_scal_r, interp_linear by assumption. unfold T. rewrite <- tang_linear by assumption. unfold Rdiv. f_equal. apply tang_ext. intros k K _. unfold setx, there. now destruct (Nat.eqb_spec k d).
  - intros i I. change (b_boundary b s i) with (py_interpolate rs node i (INR s)). rewrite Rmult_assoc. f_equal. destruct (row_in_row nd rs d f i ltac:(lia) DD F I) as ((L & _) & _). rewrite jacobian_is by assumption. unfold Rdiv. f_equal. unfold T. rewrite <- tang_linear by assumption. apply tang_ext. intros k K _. unfold here, setx, there. rewrite digit_row by (assumption || lia). destruct (Nat.eqb_spec k d); reflexivity.
Qed.
End Element.

(** ** solid elements *)
(** the change along [d] of the tangents, and of a cofactor *)
Definition hess (nd : nat) (v : arr) (c d : nat) (x : nat -> R) : R := tang nd v c (setx x d 1) - tang nd v c (setx x d 0).
Lemma hess_sym nd v c d x : c <> d -> hess nd v c d x = hess nd v d c x.
Proof.
  intros NE. unfold hess, tang. assert (S : forall a e, multilinear nd v (setx (setx x d a) c e) = multilinear nd v (setx (setx x c e) d a)).
  { intros a e. apply multilinear_ext; [reflexivity|]. intros k K. unfold setx. destruct (Nat.eqb_spec k c), (Nat.eqb_spec k d); try reflexivity. congruence. }
  rewrite !S. ring.
Qed.
Lemma tang_here nd v c d x t : (2 <= nd <= 3)%nat -> (c < nd)%nat -> (d < nd)%nat -> c <> d -> tang nd v c (setx x d t) = tang nd v c x + hess nd v c d x * (t - x d).
Proof.
  intros N C D NE. rewrite tang_linear by assumption. fold (hess nd v c d x). assert (E : tang nd v c x = tang nd v c (setx x d 0) + hess nd v c d x * x d).
  { unfold hess. rewrite <- tang_linear by assumption. apply tang_ext. intros k K _. unfold setx. now destruct (Nat.eqb_spec k d) as [->|]. }
  rewrite E. ring.
Qed.
Definition cof' (v : nat -> arr) (s : R) (d j : nat) (x : nat -> R) : R :=
  rsum 3 (fun i => if (i =? j)%nat then 0 else determinant 3 (unit_col (fun r c => if (r =? i)%nat then hess 3 (v r) c d x / s else tang 3 (v r) c x / s) d j)).
Lemma cof_quadratic v s d j x : (d < 3)%nat -> (j < 3)%nat -> exists a b c, (forall t, cof 3 v s d j (setx x d t) = a + b * t + c * t ^ 2) /\ b + c * (2 * x d) = cof' v s d j x.
Proof.
  intros DD J. set (C := determinant 3 (unit_col (fun r c => hess 3 (v r) c d x / s) d j)). set (B := cof' v s d j x - C * (2 * x d)).
  exists (cof 3 v s d j x - B * x d - C * x d ^ 2), B, C. split; [|unfold B; ring].
  intros t. unfold B, cof, cof', C.
  rewrite (unit_ext 3 (fun r c => tang 3 (v r) c (setx x d t) / s) (fun r c => (tang 3 (v r) c x + hess 3 (v r) c d x * (t - x d)) / s)) by (try lia; intros r c R C' NE; f_equal; apply tang_here; (assumption || lia)).
  clear B C. unfold Rdiv. generalize (/ s) (x d). intros is xd.
  destruct d as [|[|[|d]]]; [| | |lia]; destruct j as [|[|[|j]]]; try lia; cbn [rsum]; unfold determinant, unit_col; cbn [Nat.eqb];
  repeat match goal with |- context [hess ?n ?a ?b ?c ?d] => generalize (hess n a b c d); intro end; repeat match goal with |- context [tang ?a ?b ?c ?d] => generalize (tang a b c d); intro end; ring.
Qed.
Lemma cof_divergence v s j x : (j < 3)%nat -> rsum 3 (fun d => cof' v s d j x) = 0.
Proof.
  intros J. unfold cof', Rdiv. generalize (/ s). intros is. cbn [rsum].
  destruct j as [|[|[|j]]]; try lia; unfold determinant, unit_col; cbn [Nat.eqb]; rewrite !(fun r => hess_sym 3 (v r) 1 0 x) by discriminate; rewrite !(fun r => hess_sym 3 (v r) 2 0 x) by discriminate; rewrite !(fun r => hess_sym 3 (v r) 2 1 x) by discriminate;
  repeat match goal with |- context [hess ?n ?a ?b ?c ?d] => generalize (hess n a b c d); intro end; repeat match goal with |- context [tang ?a ?b ?c ?d] => generalize (tang a b c d); intro end; ring.
Qed.
Lemma solid_closed rs node w ratio e size v pos : (2 <= rs)%nat -> as_legendre rs node w -> e_deformed e = true -> e_nrml e = set_nrml 3 rs (basis_on rs node w ratio) size pos ->
  (forall r q, (r < 3)%nat -> (q < rs ^ 3)%nat -> pos r q = multilinear 3 (v r) (here 3 rs node q)) -> closed_element 3 rs (basis_on rs node w ratio) e (set_face_nrml 3 rs (basis_on rs node w ratio) size pos).
Proof.
  intros R LG DE NE P j q J Q. assert (D : distinct rs node) by apply LG. assert (N : (2 <= 3 <= 3)%nat) by lia.
  rewrite <- (cof_divergence v size j (here 3 rs node q) J). apply rsum_ext. intros d DD.
  destruct (cof_quadratic v size d j (here 3 rs node q) DD J) as (a & b & c & QU & <-).
  apply (derivative_quadratic rs node w a b c); [exact R|exact LG|apply digit_lt; lia|..].
  - intros i I. rewrite <- QU. unfold local_normal. rewrite DE, NE. rewrite (nrml_is 3 rs node w ratio size v pos N R D P) by (try assumption; apply along_lt; (assumption || lia)).
    apply cof_ext; [exact N|]. intros k K. unfold here, setx. rewrite digit_along by (assumption || lia). now destruct (k =? d)%nat.
  - intros s S. rewrite <- QU. rewrite (face_is 3 rs node w ratio size v pos N R D P) by (try assumption; apply foot_lt; (assumption || lia)).
    apply cof_ext; [exact N|]. intros k K. unfold here, setx, there. destruct (Nat.eqb_spec k d); [reflexivity|]. rewrite digit_foot by (assumption || lia). reflexivity.
Qed.
