(** The rule of Gauss and Legendre with four nodes; a solid element that does not close. *)
From Coq Require Import Reals Lra Lia List Arith.
From Verif Require Import Outcome RSum Tensor_Model Tensor_Spec Tensor_Proofs Row_Model Row_Spec Row_Proofs Connection_Model Basis_Model Basis_Spec Basis_Proofs Quad_Model Quad_Spec Quad_Proofs Spatial_Model Spatial_Spec Spatial_Proofs Spatial_Proofs2 Spatial_Proofs3 Spatial_Proofs4 Free_Spec Free_Proofs1 Free_Proofs4 Jac_Model Jac_Spec Jac_Proofs2 Jac_Proofs4 Jac_Proofs9.
Import ListNotations.
Local Open Scope R_scope.

Definition g_s : R := sqrt (6 / 5).
Definition g_a : R := sqrt ((3 - 2 * g_s) / 7).
Definition g_b : R := sqrt ((3 + 2 * g_s) / 7).
Definition gauss4_node (i : nat) : R := match i with 0%nat => (1 - g_b) / 2 | 1%nat => (1 - g_a) / 2 | 2%nat => (1 + g_a) / 2 | _ => (1 + g_b) / 2 end.
Definition gauss4_weight (i : nat) : R := match i with 0%nat | 3%nat => (18 - 5 * g_s) / 72 | _ => (18 + 5 * g_s) / 72 end.
Lemma g_values : g_s * g_s = 6 / 5 /\ 0 < g_s < 3 / 2 /\ g_a * g_a = (3 - 2 * g_s) / 7 /\ 0 < g_a /\ g_b * g_b = (3 + 2 * g_s) / 7 /\ g_a < g_b.
Proof.
  assert (S : g_s * g_s = 6 / 5) by (apply sqrt_sqrt; lra). assert (P : 0 < g_s) by (apply sqrt_lt_R0; lra). assert (L : g_s < 3 / 2) by nra.
  split; [exact S|]. split; [lra|]. split; [apply sqrt_sqrt; lra|]. split; [apply sqrt_lt_R0; lra|]. split; [apply sqrt_sqrt; lra|]. apply sqrt_lt_1_alt. lra.
Qed.
Lemma gauss4 : as_legendre 4 gauss4_node gauss4_weight.
Proof.
  destruct g_values as (S & P & A & PA & B & AB). split; [split|].
  - intros i j I J. destruct i as [|[|[|[|i]]]], j as [|[|[|[|j]]]]; cbn; intros; try reflexivity; try lia; exfalso; lra.
  - intros i I. destruct i as [|[|[|[|i]]]]; cbn; lra.
  - intros c. unfold polynomial, integral, gauss4_node, gauss4_weight. cbn.
    set (wa := (18 + 5 * g_s) / 72). set (wb := (18 - 5 * g_s) / 72). set (a := g_a) in *. set (b := g_b) in *. set (s := g_s) in *. clearbody a b.
    set (m1 := 2 * (wa * (a * a)) + 2 * (wb * (b * b))). set (m2 := 2 * (wa * (a * a) * (a * a)) + 2 * (wb * (b * b) * (b * b))). set (m3 := 2 * (wa * (a * a) * (a * a) * (a * a)) + 2 * (wb * (b * b) * (b * b) * (b * b))). set (m0 := 2 * wa + 2 * wb).
    assert (E0 : m0 = 1) by (unfold m0, wa, wb; field).
    assert (E1 : m1 = 1 / 3) by (unfold m1; rewrite A, B; unfold wa, wb; transitivity ((108 - 20 * (s * s)) / 252); [field|rewrite S; field]).
    assert (E2 : m2 = 1 / 5) by (unfold m2; rewrite A, B; unfold wa, wb; transitivity ((324 + 24 * (s * s)) / 1764); [field|rewrite S; field]).
    assert (E3 : m3 = 1 / 7) by (unfold m3; rewrite A, B; unfold wa, wb; transitivity ((486 + 378 * (s * s) - 40 * ((s * s) * (s * s))) / 6174); [field|rewrite S; field]).
    transitivity (c 0%nat * m0 + c 1%nat * (m0 / 2) + c 2%nat * ((m0 + m1) / 4) + c 3%nat * ((m0 + 3 * m1) / 8) + c 4%nat * ((m0 + 6 * m1 + m2) / 16) + c 5%nat * ((m0 + 10 * m1 + 5 * m2) / 32) + c 6%nat * ((m0 + 15 * m1 + 15 * m2 + m3) / 64) + c 7%nat * ((m0 + 21 * m1 + 35 * m2 + 7 * m3) / 128)).
    + unfold m0, m1, m2, m3. clear. field.
    + rewrite E0, E1, E2, E3. field.
Qed.
Lemma gauss4_eighth : rsum 4 (fun i => gauss4_weight i * gauss4_node i ^ 8) <> 1 / 9.
Proof.
  destruct g_values as (S & P & A & PA & B & AB). unfold gauss4_node, gauss4_weight. cbn.
  set (wa := (18 + 5 * g_s) / 72). set (wb := (18 - 5 * g_s) / 72). set (a := g_a) in *. set (b := g_b) in *. set (s := g_s) in *. clearbody a b.
  set (m1 := 2 * (wa * (a * a)) + 2 * (wb * (b * b))). set (m2 := 2 * (wa * (a * a) * (a * a)) + 2 * (wb * (b * b) * (b * b))). set (m3 := 2 * (wa * (a * a) * (a * a) * (a * a)) + 2 * (wb * (b * b) * (b * b) * (b * b))). set (m0 := 2 * wa + 2 * wb).
  set (m4 := 2 * (wa * (a * a) * (a * a) * (a * a) * (a * a)) + 2 * (wb * (b * b) * (b * b) * (b * b) * (b * b))).
  assert (E0 : m0 = 1) by (unfold m0, wa, wb; field).
  assert (E1 : m1 = 1 / 3) by (unfold m1; rewrite A, B; unfold wa, wb; transitivity ((108 - 20 * (s * s)) / 252); [field|rewrite S; field]).
  assert (E2 : m2 = 1 / 5) by (unfold m2; rewrite A, B; unfold wa, wb; transitivity ((324 + 24 * (s * s)) / 1764); [field|rewrite S; field]).
  assert (E3 : m3 = 1 / 7) by (unfold m3; rewrite A, B; unfold wa, wb; transitivity ((486 + 378 * (s * s) - 40 * ((s * s) * (s * s))) / 6174); [field|rewrite S; field]).
  assert (E4 : m4 = (1458 + 2808 * (6 / 5) - 192 * ((6 / 5) * (6 / 5))) / 43218) by (unfold m4; rewrite A, B; unfold wa, wb; transitivity ((1458 + 2808 * (s * s) - 192 * ((s * s) * (s * s))) / 43218); [field|rewrite S; field]).
  intros H. assert (X : (m0 + 28 * m1 + 70 * m2 + 28 * m3 + m4) / 256 = 1 / 9) by (rewrite <- H; unfold m0, m1, m2, m3, m4; clear; field). rewrite E0, E1, E2, E3, E4 in X. lra.
Qed.

(** ** derivatives against a polynomial *)
Lemma derivative_weak n node w u h Z Z' : (2 <= n)%nat -> as_legendre n node w -> poly n Z -> deriv Z Z' ->
  inner n w (derivative n (py_derivative n node) (py_boundary n node) w u h) (fun i => Z (node i)) = Z 1 * h 1%nat - Z 0 * h 0%nat - rsum n (fun i => w i * (u i * Z' (node i))).
Proof.
  intros N [[D W] IN] PZ DZ. assert (NZ : forall i, (i < n)%nat -> w i <> 0) by (intros i I; specialize (W i I); lra). set (z := fun i => Z (node i)).
  assert (NO : forall x, nodal n node z x = Z x) by (intros x; unfold nodal, z; rewrite <- (reproduce n node Z x D PZ); apply rsum_ext; intros; ring).
  assert (E : inner n w (derivative n (py_derivative n node) (py_boundary n node) w u h) z = inner n w z (mat_vec n (py_derivative n node) u) + (nodal n node z 1 * (h 1%nat - nodal n node u 1) - nodal n node z 0 * (h 0%nat - nodal n node u 0))).
  { rewrite inner_sym. unfold inner, derivative. rewrite (rsum_ext n _ (fun i => w i * (z i * mat_vec n (py_derivative n node) u i) + ((py_boundary n node 1 i * z i) * (h 1%nat - nodal n node u 1) + (py_boundary n node 0 i * z i) * - (h 0%nat - nodal n node u 0)))).
    - rewrite rsum_plus. f_equal. rewrite rsum_plus, !rsum_scal_r. change (rsum n (fun i => py_boundary n node 1 i * z i)) with (mat_vec n (py_boundary n node) z 1). change (rsum n (fun i => py_boundary n node 0 i * z i)) with (mat_vec n (py_boundary n node) z 0). rewrite !nodal_bound. cbn [INR]. ring.
    - intros i I. unfold mat_vec at 2. cbn [rsum]. rewrite !nodal_bound. unfold lift. cbn [Nat.eqb INR]. field. now apply NZ. }
  rewrite E. pose proof (summation_by_parts n node w z u ltac:(lia) D (integrates_le n node w (2 * n) (2 * n - 2) ltac:(lia) IN)) as S.
  assert (T : inner n w (mat_vec n (py_derivative n node) z) u = rsum n (fun i => w i * (u i * Z' (node i)))).
  { unfold inner. apply rsum_ext. intros i I. rewrite (uniqueness_limite (nodal n node z) (node i) _ _ (nodal_deriv n node z i D I) (deriv_ext _ _ _ _ DZ (fun x => eq_sym (NO x)) (fun x => eq_refl) (node i))). ring. }
  rewrite <- T, <- !NO. lra.
Qed.
Lemma diff_exact n node f f' k : distinct n node -> poly n f -> deriv f f' -> (k < n)%nat -> rsum n (fun i => py_derivative n node k i * f (node i)) = f' (node k).
Proof.
  intros D P DF K. rewrite (rsum_ext n _ (fun i => diff_mat n node k i * f (node i))) by (intros; now rewrite py_derivative_eq). exact (uniqueness_limite f (node k) _ _ (differentiate n node f k D P K) (DF (node k))).
Qed.
Lemma interp_exact n node f x : distinct n node -> poly n f -> rsum n (fun i => py_interpolate n node i x * f (node i)) = f x.
Proof. intros D P. rewrite (rsum_ext n _ (fun i => lagrange n node i x * f (node i))) by (intros; now rewrite py_interpolate_eq). now apply reproduce. Qed.

(** ** a frustum with a bent top *)
Definition frustum (r u : nat) : R := let x d := INR (digit 2 3 d u) in
  match r with O => x 0%nat | 1%nat => x 1%nat * (1 + x 2%nat * (1 + x 0%nat)) | _ => x 2%nat * (1 + x 0%nat) end.
Definition hump (k : nat) : R := match k with 1%nat => 1 | 2%nat => -1 | _ => 0 end.
Definition bulged (r : nat) : arr := position 3 4 gauss4_node (frustum r) (bent 4 gauss4_node 3 hump).
Definition coord (q c : nat) : R := gauss4_node (digit 4 3 c q).
Lemma face_point q j : (j < 3)%nat -> exists a b, (a < 4)%nat /\ (b < 4)%nat /\ face_qpoint 3 4 q j = (a * 4 + b)%nat /\ (j = 2%nat -> a = digit 4 3 0 q).
Proof.
  intros J. exists (digit 4 3 (if (j =? 0)%nat then 1 else 0) q)%nat, (digit 4 3 (if (j =? 2)%nat then 1 else 2) q)%nat. split; [apply digit_lt; lia|]. split; [apply digit_lt; lia|]. split; [|now intros ->].
  unfold face_qpoint, loop, digit. change (4 ^ 3 / 4 / 4)%nat with 4%nat. destruct j as [|[|[|j]]]; [| | |lia]; cbn [seq fold_left Nat.eqb fst Nat.sub]; change (4 / 4)%nat with 1%nat; lia.
Qed.
Lemma bent_values q j s : (j < 3)%nat -> (s < 2)%nat -> bent 4 gauss4_node 3 hump (2 * j * 16 + face_qpoint 3 4 q j + s * 16)%nat = if (2 * j + s =? 5)%nat then coord q 0 - coord q 0 ^ 2 else 0.
Proof.
  intros J S. destruct (face_point q j J) as (a & b & A & B & E & E2). rewrite E. unfold bent. change (4 ^ 2)%nat with 16%nat.
  replace ((2 * j * 16 + (a * 4 + b) + s * 16) / 16)%nat with (2 * j + s)%nat by (apply (Nat.div_unique _ 16 _ (a * 4 + b)); lia).
  replace ((2 * j * 16 + (a * 4 + b) + s * 16) mod 16)%nat with (a * 4 + b)%nat by (apply (Nat.mod_unique _ 16 (2 * j + s)); lia).
  replace ((a * 4 + b) / 4)%nat with a by (apply (Nat.div_unique _ 4 a b); lia).
  destruct (Nat.eqb_spec (2 * j + s) 5) as [F|F]; [|reflexivity]. rewrite (E2 ltac:(lia)). fold (coord q 0). unfold polynomial, hump. cbn [rsum Nat.eqb]. ring.
Qed.
Definition gg (x : R) : R := (1 + x) * (1 + x - x ^ 2).
Definition gg' (x : R) : R := 2 - 3 * x ^ 2.
Lemma bulged_is q : bulged 0 q = coord q 0 /\ bulged 1 q = coord q 1 * (1 + coord q 2 * gg (coord q 0)) /\ bulged 2 q = coord q 2 * gg (coord q 0).
Proof.
  pose proof (bent_values q) as BV. revert BV. set (X := fun d => gauss4_node ((q / 4 ^ (3 - d - 1)) mod 4)%nat).
  assert (E : forall d, (d < 3)%nat -> coord q d = X d) by (intros d DD; unfold coord, X, digit; do 4 f_equal; lia). rewrite !E by lia. intros BV. unfold bulged. generalize dependent (bent 4 gauss4_node 3 hump). intros adj BV.
  unfold position. change (4 ^ 3 / 4)%nat with 16%nat. cbn [seq rev app fold_left]. change (gauss4_node ((q / 4 ^ (3 - 2 - 1)) mod 4)%nat) with (X 2%nat). change (gauss4_node ((q / 4 ^ (3 - 1 - 1)) mod 4)%nat) with (X 1%nat). change (gauss4_node ((q / 4 ^ (3 - 0 - 1)) mod 4)%nat) with (X 0%nat).
  rewrite !BV by lia. clear BV E. generalize X. clear X. intros X. cbn [Nat.mul Nat.add Nat.eqb]. unfold apply_dim, dimension_matvec, gg. cbn. split; [|split]; ring.
Qed.
Lemma gg_poly a b : poly 4 (fun x => a + b * gg x).
Proof. apply (poly_S 3 (a + b) (fun x => b * (2 - x ^ 2))); [|intros; unfold gg; ring]. apply (poly_S 2 (2 * b) (fun x => - b * x)); [|intros; ring]. apply (poly_S 1 0 (fun x => - b)); [|intros; ring]. apply (poly_S 0 (- b) (fun _ => 0)); [now apply poly_0|intros; ring]. Qed.
Lemma gg_deriv a b : deriv (fun x => a + b * gg x) (fun x => b * gg' x).
Proof. apply (deriv_ext _ _ _ _ (deriv_plus _ _ _ _ (deriv_const a) (deriv_scal b _ _ (deriv_mult _ _ _ _ (deriv_plus _ _ _ _ (deriv_const 1) deriv_id) (deriv_plus _ _ _ _ (deriv_plus _ _ _ _ (deriv_const 1) deriv_id) (deriv_scal (-1) _ _ (deriv_mult _ _ _ _ deriv_id deriv_id))))))); intros; unfold gg, gg'; ring. Qed.
Lemma cubic_poly a b : poly 4 (fun x => a + b * x ^ 3).
Proof. apply (poly_S 3 a (fun x => b * x ^ 2)); [|intros; ring]. apply (poly_S 2 0 (fun x => b * x)); [|intros; ring]. apply (poly_S 1 0 (fun x => b)); [|intros; ring]. apply (poly_S 0 b (fun _ => 0)); [now apply poly_0|intros; ring]. Qed.
Lemma cubic_deriv a b : deriv (fun x => a + b * x ^ 3) (fun x => b * (3 * x ^ 2)).
Proof. apply (deriv_ext _ _ _ _ (deriv_plus _ _ _ _ (deriv_const a) (deriv_scal b _ _ (deriv_mult _ _ _ _ deriv_id (deriv_mult _ _ _ _ deriv_id deriv_id))))); intros; ring. Qed.
Section Bulged.
Variables (ratio : R) (e : elem).
Let b := basis_on 4 gauss4_node gauss4_weight ratio.
Hypotheses (DE : e_deformed e = true) (NE : e_nrml e = set_nrml 3 4 b 1 bulged).
Let D4 : distinct 4 gauss4_node. Proof. apply gauss4. Qed.
Let jac := jacobian 3 4 b 1 bulged.
Lemma coord_along q d i c : (q < 64)%nat -> (d < 3)%nat -> (c < 3)%nat -> (i < 4)%nat -> coord (along 3 4 d q i) c = if (c =? d)%nat then gauss4_node i else coord q c.
Proof. intros Q DD C I. unfold coord. rewrite digit_along by (assumption || lia || (change (4 ^ 3)%nat with 64%nat; lia)). now destruct (c =? d)%nat. Qed.
Lemma along_64 q d i : (q < 64)%nat -> (d < 3)%nat -> (i < 4)%nat -> (along 3 4 d q i < 64)%nat.
Proof. intros. change 64%nat with (4 ^ 3)%nat. apply along_lt; (assumption || lia). Qed.
Lemma jac_linear r c q f0 f1 : (q < 64)%nat -> (c < 3)%nat -> (forall i, (i < 4)%nat -> bulged r (along 3 4 c q i) = f0 + f1 * gauss4_node i) -> jac r c q = f1.
Proof.
  intros Q C E. unfold jac, jacobian. rewrite diff_at by lia. unfold Rdiv. rewrite Rinv_1, Rmult_1_r. change (b_diff b) with (py_derivative 4 gauss4_node).
  rewrite (rsum_ext 4 _ (fun i => py_derivative 4 gauss4_node (digit 4 3 c q) i * (f0 + f1 * gauss4_node i))) by (intros; now rewrite E). apply diff_linear; [lia|exact D4|apply digit_lt; lia].
Qed.
Lemma jac_is q : (q < 64)%nat -> jac 0%nat 0%nat q = 1 /\ jac 0%nat 1%nat q = 0 /\ jac 0%nat 2%nat q = 0 /\
  jac 1%nat 0%nat q = coord q 1 * coord q 2 * gg' (coord q 0) /\ jac 1%nat 1%nat q = 1 + coord q 2 * gg (coord q 0) /\ jac 1%nat 2%nat q = coord q 1 * gg (coord q 0) /\
  jac 2%nat 0%nat q = coord q 2 * gg' (coord q 0) /\ jac 2%nat 1%nat q = 0 /\ jac 2%nat 2%nat q = gg (coord q 0).
Proof.
  intros Q. assert (L : forall c, (digit 4 3 c q < 4)%nat) by (intros; apply digit_lt; lia).
  assert (G : forall r f0 f1, (forall i, (i < 4)%nat -> bulged r (along 3 4 0 q i) = f0 + f1 * gg (gauss4_node i)) -> jac r 0%nat q = f1 * gg' (coord q 0)).
  { intros r f0 f1 E. unfold jac, jacobian. rewrite diff_at by lia. unfold Rdiv. rewrite Rinv_1, Rmult_1_r. change (b_diff b) with (py_derivative 4 gauss4_node).
    rewrite (rsum_ext 4 _ (fun i => py_derivative 4 gauss4_node (digit 4 3 0 q) i * (fun x => f0 + f1 * gg x) (gauss4_node i))) by (intros; now rewrite E). apply (diff_exact 4 gauss4_node _ _ _ D4 (gg_poly _ _) (gg_deriv _ _) (L 0%nat)). }
  repeat split.
  1: apply (jac_linear _ _ _ 0). 4: apply (jac_linear _ _ _ (coord q 0)). 7: apply (jac_linear _ _ _ (coord q 0)). 10: apply (G 1%nat (coord q 1)). 11: apply (jac_linear _ _ _ 0). 14: apply (jac_linear _ _ _ (coord q 1)). 17: apply (G 2%nat 0). 18: apply (jac_linear _ _ _ (coord q 2 * gg (coord q 0))). 21: apply (jac_linear _ _ _ 0).
  all: try assumption; try lia; intros i I; destruct (bulged_is (along 3 4 0 q i)) as (A0 & A1 & A2); destruct (bulged_is (along 3 4 1 q i)) as (B0 & B1 & B2); destruct (bulged_is (along 3 4 2 q i)) as (C0 & C1 & C2);
    rewrite ?A0, ?A1, ?A2, ?B0, ?B1, ?B2, ?C0, ?C1, ?C2; rewrite !coord_along by (assumption || lia); cbn [Nat.eqb]; ring.
Qed.
Lemma bulged_not_closed : ~ closed_element 3 4 b e (set_face_nrml 3 4 b 1 bulged).
Proof.
  intros CE.
  assert (LN : forall d q i, (d < 3)%nat -> (q < 64)%nat -> (i < 4)%nat -> local_normal 3 4 e (along 3 4 d q i) 0 d = let p := along 3 4 d q i in jac 1%nat (n1 d) p * jac 2%nat (n2 d) p - jac 1%nat (n2 d) p * jac 2%nat (n1 d) p).
  { intros d q i DD Q I. cbv zeta. assert (LA : (along 3 4 d q i < 4 ^ 3)%nat) by now apply along_64. unfold local_normal. rewrite DE, NE. unfold set_nrml. rewrite flat_div, flat_mod by exact LA. rewrite flat_div, flat_mod by lia. rewrite cyclic by (assumption || lia). reflexivity. }
  set (B := fun d q s r c => rsum 4 (fun i => py_interpolate 4 gauss4_node i (INR s) * jac r c (along 3 4 d q i))).
  assert (FN : forall d q s, (d < 3)%nat -> (q < 64)%nat -> (s < 2)%nat -> set_face_nrml 3 4 b 1 bulged (2 * d + s) (0 * 4 ^ (3 - 1) + foot 3 4 d q)%nat =
    B d q s 1%nat (n1 d) * B d q s 2%nat (n2 d) - B d q s 1%nat (n2 d) * B d q s 2%nat (n1 d)).
  { intros d q s DD Q S. unfold set_face_nrml. assert (FL : (foot 3 4 d q < 4 ^ (3 - 1))%nat) by (apply foot_lt; (assumption || lia)). rewrite flat_div, flat_mod by exact FL. replace ((2 * d + s) / 2)%nat with d by (apply (Nat.div_unique _ 2 d s); lia). replace ((2 * d + s) mod 2)%nat with s by (apply (Nat.mod_unique _ 2 d s); lia).
    rewrite cyclic by (assumption || lia). rewrite !bound_foot by (assumption || lia). reflexivity. }
  assert (BG : forall q s r c f0 f1, (forall i, (i < 4)%nat -> jac r c (along 3 4 0 q i) = f0 + f1 * gg (gauss4_node i)) -> B 0%nat q s r c = f0 + f1 * gg (INR s)).
  { intros q s r c f0 f1 E. unfold B. rewrite (rsum_ext 4 _ (fun i => py_interpolate 4 gauss4_node i (INR s) * (fun x => f0 + f1 * gg x) (gauss4_node i))) by (intros; now rewrite E). apply (interp_exact 4 gauss4_node _ _ D4 (gg_poly f0 f1)). }
  assert (BL : forall d q s r c f0 f1, (forall i, (i < 4)%nat -> jac r c (along 3 4 d q i) = f0 + f1 * gauss4_node i) -> B d q s r c = f0 + f1 * INR s).
  { intros d q s r c f0 f1 E. unfold B. rewrite (rsum_ext 4 _ (fun i => py_interpolate 4 gauss4_node i (INR s) * (f0 + f1 * gauss4_node i))) by (intros; now rewrite E). apply interp_linear; [lia|exact D4]. }
  set (g := derivative 4 (py_derivative 4 gauss4_node) (py_boundary 4 gauss4_node) gauss4_weight (fun i => gg (gauss4_node i) * gg (gauss4_node i)) (fun s => gg (INR s) * gg (INR s))).
  assert (G : forall k, (k < 4)%nat -> g k = 2 * gg (gauss4_node k) * gg' (gauss4_node k)).
  { intros k K. set (q := (k * 16)%nat). assert (Q : (q < 64)%nat) by (unfold q; lia).
    assert (K0 : digit 4 3 0 q = k) by (unfold digit, q; cbn [Nat.sub]; change (4 ^ 2)%nat with 16%nat; rewrite Nat.div_mul by lia; now apply Nat.mod_small).
    set (x := gauss4_node k). set (y := coord q 1). set (z := coord q 2). assert (X0 : coord q 0 = x) by (unfold coord; now rewrite K0).
    assert (ZP : z <> 0). { unfold z, coord. destruct g_values as (S & PS & A & PA & B' & AB). assert (g_b < 1) by nra. destruct (digit 4 3 2 q) as [|[|[|n]]]; cbn; lra. }
    pose proof (CE 0%nat q ltac:(lia) Q) as C. cbn [rsum] in C. rewrite Rplus_0_l in C.
    assert (E0 : derivative 4 (b_diff b) (b_boundary b) (b_weight b) (fun i => local_normal 3 4 e (along 3 4 0 q i) 0 0) (fun s => set_face_nrml 3 4 b 1 bulged (2 * 0 + s) (0 * 4 ^ (3 - 1) + foot 3 4 0 q)%nat) (digit 4 3 0 q) = gg' x + z * g k).
    { rewrite K0. rewrite (derivative_ext 4 _ _ _ _ (fun i => gg (gauss4_node i) + z * (gg (gauss4_node i) * gg (gauss4_node i))) _ (fun s => gg (INR s) + z * (gg (INR s) * gg (INR s)))).
      - assert (LI : forall u v u' v', derivative 4 (b_diff b) (b_boundary b) (b_weight b) (fun i => u i + z * v i) (fun s => u' s + z * v' s) k = derivative 4 (b_diff b) (b_boundary b) (b_weight b) u u' k + z * derivative 4 (b_diff b) (b_boundary b) (b_weight b) v v' k).
        { intros u v u' v'. unfold derivative, mat_vec. cbn [rsum]. ring. }
        rewrite (LI (fun i => gg (gauss4_node i)) (fun i => gg (gauss4_node i) * gg (gauss4_node i)) (fun s => gg (INR s)) (fun s => gg (INR s) * gg (INR s))). unfold g. f_equal.
        rewrite (derivative_ext 4 _ _ _ (fun i => gg (gauss4_node i)) (fun i => (fun t => 0 + 1 * gg t) (gauss4_node i)) (fun s => gg (INR s)) (fun s => (fun t => 0 + 1 * gg t) (INR s))) by (intros; ring).
        change (b_diff b) with (py_derivative 4 gauss4_node). change (b_boundary b) with (py_boundary 4 gauss4_node). change (b_weight b) with gauss4_weight.
        rewrite (derivative_exact 4 gauss4_node gauss4_weight _ _ k ltac:(lia) gauss4 (poly_weaken_le 4 6 _ ltac:(lia) (gg_poly 0 1)) (gg_deriv 0 1) K). fold x. ring.
      - intros i I. rewrite LN by (assumption || lia). cbv zeta. cbn [n1 n2]. destruct (jac_is (along 3 4 0 q i)) as (_ & _ & _ & _ & -> & -> & _ & -> & ->); [apply along_64; (assumption || lia)|]. rewrite !coord_along by (assumption || lia). cbn [Nat.eqb]. fold y z. ring.
      - intros s S. rewrite FN by (assumption || lia). cbn [n1 n2].
        rewrite (BG q s 1%nat 1%nat 1 z), (BG q s 2%nat 2%nat 0 1), (BG q s 2%nat 1%nat 0 0); [ring| | |]; intros i I; destruct (jac_is (along 3 4 0 q i)) as (_ & _ & _ & _ & J11 & J12 & _ & J21 & J22); try (apply along_64; (assumption || lia)); rewrite ?J11, ?J12, ?J21, ?J22; rewrite ?coord_along by (assumption || lia); cbn [Nat.eqb]; fold z; ring. }
    assert (E1 : derivative 4 (b_diff b) (b_boundary b) (b_weight b) (fun i => local_normal 3 4 e (along 3 4 1 q i) 0 1) (fun s => set_face_nrml 3 4 b 1 bulged (2 * 1 + s) (0 * 4 ^ (3 - 1) + foot 3 4 1 q)%nat) (digit 4 3 1 q) = 0 + 0 * (2 * gauss4_node (digit 4 3 1 q))).
    { apply (derivative_quadratic 4 gauss4_node gauss4_weight 0); [lia|exact gauss4|apply digit_lt; lia| |].
      - intros i I. rewrite LN by (assumption || lia). cbv zeta. cbn [n1 n2]. destruct (jac_is (along 3 4 1 q i)) as (_ & _ & _ & -> & _ & -> & -> & _ & ->); [apply along_64; (assumption || lia)|]. rewrite !coord_along by (assumption || lia). cbn [Nat.eqb]. ring.
      - intros s S. rewrite FN by (assumption || lia). cbn [n1 n2].
        rewrite (BL 1%nat q s 1%nat 2%nat 0 (gg x)), (BL 1%nat q s 2%nat 0%nat (z * gg' x) 0), (BL 1%nat q s 1%nat 0%nat 0 (z * gg' x)), (BL 1%nat q s 2%nat 2%nat (gg x) 0); [ring| | | |]; intros i I; destruct (jac_is (along 3 4 1 q i)) as (_ & _ & _ & J10 & _ & J12 & J20 & _ & J22); try (apply along_64; (assumption || lia)); rewrite ?J10, ?J12, ?J20, ?J22; rewrite ?coord_along by (assumption || lia); cbn [Nat.eqb]; rewrite ?X0; fold z; ring. }
    assert (E2 : derivative 4 (b_diff b) (b_boundary b) (b_weight b) (fun i => local_normal 3 4 e (along 3 4 2 q i) 0 2) (fun s => set_face_nrml 3 4 b 1 bulged (2 * 2 + s) (0 * 4 ^ (3 - 1) + foot 3 4 2 q)%nat) (digit 4 3 2 q) = - gg' x + - (gg x * gg' x) * (2 * gauss4_node (digit 4 3 2 q))).
    { apply (derivative_quadratic 4 gauss4_node gauss4_weight 0); [lia|exact gauss4|apply digit_lt; lia| |].
      - intros i I. rewrite LN by (assumption || lia). cbv zeta. cbn [n1 n2]. destruct (jac_is (along 3 4 2 q i)) as (_ & _ & _ & -> & -> & _ & -> & -> & _); [apply along_64; (assumption || lia)|]. rewrite !coord_along by (assumption || lia). cbn [Nat.eqb]. rewrite X0. ring.
      - intros s S. rewrite FN by (assumption || lia). cbn [n1 n2].
        rewrite (BL 2%nat q s 1%nat 0%nat 0 (y * gg' x)), (BL 2%nat q s 2%nat 1%nat 0 0), (BL 2%nat q s 1%nat 1%nat 1 (gg x)), (BL 2%nat q s 2%nat 0%nat 0 (gg' x)); [ring| | | |]; intros i I; destruct (jac_is (along 3 4 2 q i)) as (_ & _ & _ & J10 & J11 & _ & J20 & J21 & _); try (apply along_64; (assumption || lia)); rewrite ?J10, ?J11, ?J20, ?J21; rewrite ?coord_along by (assumption || lia); cbn [Nat.eqb]; rewrite ?X0; fold y; ring. }
    rewrite E0, E1, E2 in C. change (gauss4_node (digit 4 3 2 q)) with z in C. fold x. apply (Rmult_eq_reg_l z); [|exact ZP]. lra. }
  pose proof (derivative_weak 4 gauss4_node gauss4_weight (fun i => gg (gauss4_node i) * gg (gauss4_node i)) (fun s => gg (INR s) * gg (INR s)) _ _ ltac:(lia) gauss4 (cubic_poly 0 1) (cubic_deriv 0 1)) as W. fold g in W. cbv beta in W.
  unfold inner in W. rewrite (rsum_ext 4 _ (fun i => gauss4_weight i * (2 * gg (gauss4_node i) * gg' (gauss4_node i) * gauss4_node i ^ 3))) in W by (intros i I; rewrite G by exact I; ring).
  destruct gauss4 as [_ IN].
  (* the integrand without its term of degree 8 *)
  pose (c := fun k : nat => nth k [0; 0; 3; 16; 20; -12; -28; 0] 0).
  pose proof (IN c) as I7. unfold integral, polynomial in I7. cbn [Nat.mul Nat.add rsum INR] in I7. unfold c in I7. cbn [nth] in I7.
  apply gauss4_eighth. cbn [rsum] in *. unfold gg, gg' in W. cbn [INR] in W. lra.
Qed.
End Bulged.
