(** The normals of elements given by their vertices agree. *)
From Coq Require Import Reals List Arith Bool ZArith Lia Lra FunctionalExtensionality.
From Verif Require Import Outcome RSum Tensor_Model Tensor_Spec Tensor_Proofs Row_Model Row_Spec Row_Proofs Connection_Model Connection_Spec Connection_Proofs Connection2_Proofs Basis_Model Basis_Spec Basis_Proofs Quad_Model Quad_Spec Quad_Proofs Spatial_Model Spatial_Spec Spatial_Proofs Spatial_Proofs2 Spatial_Proofs3 Spatial_Proofs4 Free_Spec Free_Proofs1 Free_Proofs2 Free_Proofs4 Jac_Model Jac_Spec Jac_Proofs1 Jac_Proofs2 Jac_Proofs3 Jac_Proofs4 Jac_Proofs5 Jac_Proofs6.
Import ListNotations.
Local Open Scope R_scope.

(** ** Cartesian elements *)
Lemma multi_flat nd a s r x : (2 <= nd <= 3)%nat -> (r < nd)%nat -> multilinear nd (fun u => a + s * INR (coords 2 nd u r)) x = a + s * x r.
Proof.
  intros N RR. assert (H : nd = 2%nat \/ nd = 3%nat) by lia. destruct H as [-> | ->]; destruct r as [|[|[|r]]]; try lia; unfold multilinear, vertex_weight; cbn; ring.
Qed.
Lemma flat_tang nd v a s r c x : (2 <= nd <= 3)%nat -> (r < nd)%nat -> (forall u, (u < 2 ^ nd)%nat -> v u = a + s * INR (coords 2 nd u r)) -> tang nd v c x = if (r =? c)%nat then s else 0.
Proof.
  intros N RR V. unfold tang. assert (E : forall x, multilinear nd v x = a + s * x r) by (intros y; rewrite <- (multi_flat nd a s r y) by assumption; apply multilinear_ext; auto). rewrite !E. unfold setx. destruct (r =? c)%nat; ring.
Qed.
Lemma flat_cof nd v a s d j x : (2 <= nd <= 3)%nat -> s <> 0 -> (d < nd)%nat -> (j < nd)%nat -> (forall r u, (r < nd)%nat -> (u < 2 ^ nd)%nat -> v r u = a r + s * INR (coords 2 nd u r)) ->
  cof nd v s d j x = if (j =? d)%nat then 1 else 0.
Proof.
  intros N S D J V. unfold cof. rewrite (unit_ext nd _ (fun r c => if (r =? c)%nat then 1 else 0)) by (try exact N; intros r c RR C _; rewrite (flat_tang nd (v r) (a r) s r c x N RR) by auto; destruct (r =? c)%nat; field; exact S).
  assert (H : nd = 2%nat \/ nd = 3%nat) by lia. destruct H as [-> | ->]; destruct d as [|[|[|d]]]; try lia; destruct j as [|[|[|j]]]; try lia; unfold determinant, unit_col; cbn [Nat.eqb]; ring.
Qed.

(** ** the point of the second side *)
Lemma match_value nd rs n d a v q : (1 <= nd <= 3)%nat -> (0 < rs)%nat -> (v < n)%nat -> (q < rs ^ (nd - 1))%nat -> fp_match nd rs n d a (v * rs ^ (nd - 1) + q)%nat = a (v * rs ^ (nd - 1) + face_transpose nd rs d (face_flip nd rs d q))%nat.
Proof.
  intros N RS V Q. assert (G : (face_flip nd rs d q < rs ^ (nd - 1))%nat) by now apply face_flip_good.
  assert (E : fp_flip nd rs n d (fp_transpose nd rs n d a) (v * rs ^ (nd - 1) + q)%nat = fp_transpose nd rs n d a (v * rs ^ (nd - 1) + face_flip nd rs d q)%nat).
  { unfold fp_flip, face_flip. destruct (flip_tangential d); [|reflexivity]. destruct (Nat.eqb_spec nd 3) as [->|]; [destruct (xorb _ _); now apply permute_at|]. destruct (Nat.eqb_spec nd 2) as [->|]; [|reflexivity]. rewrite permute_at by assumption. cbn [Nat.sub] in Q. rewrite Nat.pow_1_r in Q. unfold pi_colwise. rewrite Nat.mod_small, Nat.div_small by exact Q. f_equal. lia. }
  unfold fp_match. rewrite E. unfold fp_transpose, face_transpose. destruct (transpose d); [|reflexivity]. destruct (nd =? 3)%nat; [|reflexivity]. now apply permute_at.
Qed.
Lemma joined_match nd rs node d q : (2 <= nd <= 3)%nat -> (0 < rs)%nat -> mirrored rs node -> allowed nd d -> (q < rs ^ (nd - 1))%nat -> let p := face_transpose nd rs d (face_flip nd rs d q) in
  (p < rs ^ (nd - 1))%nat /\ joined nd d (there nd rs node (dim0 d) (Nat.b2n (sign0 d)) q) (there nd rs node (dim1 d) (Nat.b2n (sign1 d)) p).
Proof.
  intros N RS MI A Q p. assert (N1 : (1 <= nd <= 3)%nat) by lia. assert (Pp : (p < rs ^ (nd - 1))%nat) by (apply face_transpose_good; [exact N1|]; now apply face_flip_good).
  split; [exact Pp|]. destruct (proj2 (partner nd rs d q p N1 A Q Pp) eq_refl) as [G1 G2]. unfold face_coord, coords in G1, G2.
  constructor; unfold there.
  - now rewrite Nat.eqb_refl.
  - now rewrite Nat.eqb_refl.
  - intros k K K0 K1. destruct (Nat.eqb_spec k (dim1 d)); [congruence|]. destruct (Nat.eqb_spec k (dim0 d)); [congruence|]. f_equal. exact (G1 k K K0 K1).
  - intros D. destruct (Nat.eqb_spec (dim0 d) (dim1 d)); [congruence|]. destruct (Nat.eqb_spec (dim1 d) (dim0 d)); [congruence|]. specialize (G2 D). unfold drop. rewrite G2. destruct (Bool.eqb (sign0 d) (sign1 d)); [reflexivity|]. apply MI. apply digit_lt. exact RS.
Qed.

(** ** linear along a face *)
Lemma cof_linear nd v s d j x c t : (2 <= nd <= 3)%nat -> (d < nd)%nat -> (j < nd)%nat -> (c < nd)%nat -> c <> d -> cof nd v s d j (setx x c t) = cof nd v s d j (setx x c 0) + (cof nd v s d j (setx x c 1) - cof nd v s d j (setx x c 0)) * t.
Proof.
  intros N D J C NE. set (T := fun t r c' => (if (c' =? c)%nat then tang nd (v r) c x else tang nd (v r) c' x + hess nd (v r) c' c x * (t - x c)) / s).
  assert (E : forall t, cof nd v s d j (setx x c t) = determinant nd (unit_col (T t) d j)).
  { intros t'. unfold cof. apply unit_ext; [exact N|]. intros r c' RR C' NE'. unfold T. f_equal. destruct (Nat.eqb_spec c' c) as [->|X]; [|now apply tang_here]. apply tang_ext. intros k K X. unfold setx. now destruct (Nat.eqb_spec k c). }
  rewrite !E. unfold T, Rdiv. generalize (/ s) (x c). intros is xc.
  assert (H : nd = 2%nat \/ nd = 3%nat) by lia. destruct H as [-> | ->]; destruct d as [|[|[|d]]]; try lia; destruct c as [|[|[|c]]]; try lia; destruct j as [|[|[|j]]]; try lia; unfold determinant, unit_col; cbn [Nat.eqb]; ring.
Qed.

(** ** mortar faces *)
Definition on (d s : nat) (t : nat -> R) (l : nat) : R := if (l =? d)%nat then INR s else t (drop d l).
Section Mortar.
Variables (nd rs : nat) (node w : nat -> R) (ratio size : R) (v : nat -> arr) (d s j : nat) (str : nat -> bool) (k : nat).
Hypotheses (N : (2 <= nd <= 3)%nat) (RS : (2 <= rs)%nat) (DI : distinct rs node) (DD : (d < nd)%nat) (J : (j < nd)%nat).
Let b := basis_on rs node w ratio.
Let G (t : nat -> R) := cof nd v size d j (on d s t).
Lemma G_ext t t' : (forall l, (l < nd - 1)%nat -> t l = t' l) -> G t = G t'.
Proof. intros E. unfold G. apply cof_ext; [exact N|]. intros l L. unfold on. destruct (Nat.eqb_spec l d); [reflexivity|]. apply E. unfold drop. destruct (Nat.ltb_spec l d); lia. Qed.
Lemma G_linear t l x : (l < nd - 1)%nat -> G (setx t l x) = G (setx t l 0) + (G (setx t l 1) - G (setx t l 0)) * x.
Proof.
  intros L. set (c := if (l <? d)%nat then l else S l). assert (C : (c < nd)%nat /\ c <> d /\ drop d c = l) by (unfold c, drop; destruct (Nat.ltb_spec l d); [destruct (Nat.ltb_spec l d); lia|destruct (Nat.ltb_spec (S l) d); lia]). destruct C as (C & NE & DC).
  assert (E : forall x, G (setx t l x) = cof nd v size d j (setx (on d s t) c x)).
  { intros y. unfold G. apply cof_ext; [exact N|]. intros k' K. unfold on, setx. destruct (Nat.eqb_spec k' d) as [->|X]; [destruct (Nat.eqb_spec d c); [congruence|reflexivity]|].
    destruct (Nat.eqb_spec k' c) as [->|Y]; [rewrite DC, Nat.eqb_refl; reflexivity|]. destruct (Nat.eqb_spec (drop d k') l) as [Z|Z]; [|reflexivity]. exfalso. apply Y. rewrite <- DC in Z. unfold drop in Z. destruct (Nat.ltb_spec k' d), (Nat.ltb_spec c d); lia. }
  rewrite !E. now apply cof_linear.
Qed.
Fixpoint fac (n : nat) : R := match n with O => 1 | S n => fac n * if str n then 2 else 1 end.
Definition half (l : nat) (x : R) : R := if str l then x else (x + INR (half_of nd str k l)) / 2.
Lemma coarse_value a q : (q < rs ^ (nd - 1))%nat -> (forall q, (q < rs ^ (nd - 1))%nat -> a q = G (fun l => node (digit rs (nd - 1) l q))) ->
  face_dims nd rs str (fun x => x * 2) (b_prolong b) k a q = fac (nd - 1) * G (fun l => half l (node (digit rs (nd - 1) l q))).
Proof.
  intros Q A.
  pose (P := fun (n : nat) (a : arr) => forall q, (q < rs ^ (nd - 1))%nat -> a q = fac n * G (fun l => if (l <? n)%nat then half l (node (digit rs (nd - 1) l q)) else node (digit rs (nd - 1) l q))).
  assert (H : P (nd - 1)%nat (face_dims nd rs str (fun x => x * 2) (b_prolong b) k a)).
  { apply (face_dims_ind nd rs str (fun x => x * 2) (b_prolong b) k P).
    - intros p Pp. cbn [fac]. rewrite Rmult_1_l. rewrite A by exact Pp. reflexivity.
    - intros n a' L IH ST p Pp. rewrite IH by exact Pp. cbn [fac]. rewrite ST. rewrite (G_ext _ (fun l => if (l <? S n)%nat then half l (node (digit rs (nd - 1) l p)) else node (digit rs (nd - 1) l p))); [ring|].
      intros l _. destruct (Nat.ltb_spec l n), (Nat.ltb_spec l (S n)); try lia; try reflexivity. assert (l = n) as -> by lia. unfold half. now rewrite ST.
    - intros n a' L IH ST p Pp. rewrite face_rows_row by (assumption || lia). cbn [fac]. rewrite ST.
      set (T := fun l => if (l <? n)%nat then half l (node (digit rs (nd - 1) l p)) else node (digit rs (nd - 1) l p)).
      rewrite (rsum_ext rs _ (fun i => fac n * (py_interpolate rs node i ((node (digit rs (nd - 1) n p) + INR (half_of nd str k n)) / 2) * (G (setx T n 0) + (G (setx T n 1) - G (setx T n 0)) * node i)))).
      + rewrite rsum_scal, interp_linear by assumption. rewrite <- G_linear by exact L. rewrite Rmult_1_r. f_equal. apply G_ext. intros l _. unfold setx, T. destruct (Nat.eqb_spec l n) as [->|X].
        * destruct (Nat.ltb_spec n (S n)); [|lia]. unfold half. now rewrite ST.
        * destruct (Nat.ltb_spec l n), (Nat.ltb_spec l (S n)); try lia; reflexivity.
      + intros i I. rewrite <- G_linear by exact L. assert (LA : (along (nd - 1) rs n p i < rs ^ (nd - 1))%nat) by (apply along_lt; (assumption || lia)). rewrite IH by exact LA. change (b_prolong b (half_of nd str k n) (digit rs (nd - 1) n p) i) with (py_interpolate rs node i ((node (digit rs (nd - 1) n p) + INR (half_of nd str k n)) / 2)).
        rewrite (G_ext _ (setx T n (node i))); [ring|]. intros l Ll. unfold setx, T. rewrite digit_along by (assumption || lia). destruct (Nat.eqb_spec l n) as [->|]; [now rewrite Nat.ltb_irrefl|reflexivity]. }
  rewrite (H q Q). f_equal. apply G_ext. intros l L. destruct (Nat.ltb_spec l (nd - 1)); [reflexivity|lia].
Qed.

(** the part of the element *)
Lemma multi_part u al be x : multilinear nd (fun i => multilinear nd u (fun l => al l + be l * INR (coords 2 nd i l))) x = multilinear nd u (fun l => al l + be l * x l).
Proof.
  assert (H : nd = 2%nat \/ nd = 3%nat) by (clear - N; lia). destruct H as [-> | ->].
  - destruct (multi2 u) as (c0 & c1 & c2 & c3 & E). rewrite E. unfold multilinear at 1, vertex_weight. cbn [rsum Nat.pow Nat.mul Nat.add]. rewrite !E. cbn. ring.
  - destruct (multi3 u) as (c0 & c1 & c2 & c3 & c4 & c5 & c6 & c7 & E). rewrite E. unfold multilinear at 1, vertex_weight. cbn [rsum Nat.pow Nat.mul Nat.add]. rewrite !E. cbn. ring.
Qed.
Lemma half_fine l : (l < nd - 1)%nat -> str l = false -> half_of nd str k l = fine_pos (map str (seq 0 (nd - 1))) k l.
Proof.
  intros L ST. assert (H : nd = 2%nat \/ nd = 3%nat) by (clear - N; lia). unfold half_of, fine_pos. destruct H as [-> | ->]; destruct l as [|[|l]]; cbn [Nat.sub] in L; try lia; cbn [Nat.sub seq map skipn Nat.add]; rewrite ?ST.
  - cbn [filter length]. reflexivity.
  - destruct (str 1%nat); cbn [negb filter length]; reflexivity.
  - cbn [filter length]. reflexivity.
Qed.
Let be (l : nat) : R := if ((l =? d)%nat || str (drop d l))%bool then 1 else 1 / 2.
Let al (l : nat) : R := if ((l =? d)%nat || str (drop d l))%bool then 0 else INR (half_of nd str k (drop d l)) / 2.
Lemma part_is r x : multilinear nd (part nd d str k v r) x = multilinear nd (v r) (fun l => al l + be l * x l).
Proof.
  rewrite <- multi_part. apply multilinear_ext; [|reflexivity]. intros u U. unfold part. apply multilinear_ext; [reflexivity|]. intros l L. cbv zeta. unfold al, be. change (if (l <? d)%nat then l else (l - 1)%nat) with (drop d l).
  destruct (Nat.eqb_spec l d) as [->|X]; cbn [orb]; [ring|]. destruct (str (drop d l)) eqn:ST; [ring|]. rewrite <- half_fine; [field| |exact ST]. unfold drop. destruct (Nat.ltb_spec l d); lia.
Qed.
Lemma part_tang r c x : (c < nd)%nat -> tang nd (part nd d str k v r) c x = be c * tang nd (v r) c (fun l => al l + be l * x l).
Proof.
  intros C. unfold tang at 1. rewrite !part_is.
  assert (E : forall t, multilinear nd (v r) (fun l => al l + be l * setx x c t l) = multilinear nd (v r) (setx (fun l => al l + be l * x l) c (al c + be c * t))).
  { intros t. apply multilinear_ext; [reflexivity|]. intros l L. unfold setx. now destruct (Nat.eqb_spec l c) as [->|]. }
  rewrite !E. rewrite (multi_linear nd (v r) _ c (al c + be c * 1)), (multi_linear nd (v r) _ c (al c + be c * 0)) by assumption. ring.
Qed.
Lemma part_cof q : size <> 0 -> cof nd (part nd d str k v) (size / 2) d j (there nd rs node d s q) = fac (nd - 1) * G (fun l => half l (node (digit rs (nd - 1) l q))).
Proof.
  intros SZ. unfold G, cof. set (X := on d s (fun l => half l (node (digit rs (nd - 1) l q)))).
  rewrite (unit_ext nd _ (fun r c => (if ((c =? d)%nat || str (drop d c))%bool then 2 else 1) * (tang nd (v r) c X / size))).
  - unfold Rdiv. generalize (/ size). intros is. assert (H : nd = 2%nat \/ nd = 3%nat) by (clear - N; lia). clearbody X. clear - H DD J. destruct H as [-> | ->]; destruct d as [|[|[|d']]]; try lia; destruct j as [|[|[|j']]]; try lia; unfold determinant, unit_col; cbn [Nat.eqb Nat.sub fac drop Nat.ltb Nat.leb orb]; try (destruct (str 0%nat)); try (destruct (str 1%nat)); ring.
  - exact N.
  - intros r c RR C NE. rewrite part_tang by exact C. rewrite (tang_ext nd (v r) _ X c); [unfold be; destruct ((c =? d)%nat || str (drop d c))%bool; field; exact SZ|]. intros l L _. unfold X, there, on, al, be, half. destruct (Nat.eqb_spec l d) as [->|]; cbn [orb]; [ring|]. destruct (str (drop d l)); field.
Qed.
End Mortar.
