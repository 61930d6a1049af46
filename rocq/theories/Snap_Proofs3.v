(** Snapped faces. *)
From Coq Require Import Reals List Arith Bool Lia Lra FunctionalExtensionality.
From Verif Require Import Outcome RSum Tensor_Model Tensor_Spec Tensor_Proofs Row_Model Row_Spec Row_Proofs Basis_Model Basis_Spec Basis_Proofs Quad_Model Quad_Spec Quad_Proofs Spatial_Model Spatial_Spec Free_Spec Free_Proofs1 Jac_Model Jac_Spec Jac_Proofs4 Jac_Proofs5 Jac_Proofs10 Snap_Model Snap_Spec Snap_Proofs1 Snap_Proofs2.
Import ListNotations.
Local Open Scope R_scope.

Lemma rgt_true x y : rgt x y = true <-> y < x. Proof. unfold rgt. destruct (Rlt_dec y x); split; intros; (assumption || discriminate || contradiction || reflexivity). Qed.
Lemma rgt_false x y : rgt x y = false <-> x <= y. Proof. unfold rgt. destruct (Rlt_dec y x); split; intros; try discriminate; lra. Qed.

(** ** the nearest intersection *)
Lemma choose_is s sects : (choose s sects = (0, 1) /\ forall t, In t sects -> 1 <= Rabs (t - INR s)) \/ (exists t, nearest s sects t /\ choose s sects = (t - INR s, Rabs (t - INR s)) /\ Rabs (t - INR s) < 1).
Proof.
  induction sects as [|t sects IH] using rev_ind; [left; split; [reflexivity|intros t []]|].
  unfold choose. rewrite fold_left_app. fold (choose s sects). cbn [fold_left].
  destruct IH as [(-> & A)|(u & (I & NU) & -> & U)].
  - destruct (rgt 1 (Rabs (t - INR s))) eqn:G.
    + apply rgt_true in G. right. exists t. split; [split; [apply in_or_app; right; now left|]|split; [reflexivity|exact G]].
      intros t' T'. apply in_app_or in T' as [T'|[->|[]]]; [specialize (A t' T'); lra|lra].
    + apply rgt_false in G. left. split; [reflexivity|]. intros t' T'. apply in_app_or in T' as [T'|[->|[]]]; [now apply A|exact G].
  - destruct (rgt (Rabs (u - INR s)) (Rabs (t - INR s))) eqn:G.
    + apply rgt_true in G. right. exists t. split; [split; [apply in_or_app; right; now left|]|split; [reflexivity|lra]].
      intros t' T'. apply in_app_or in T' as [T'|[->|[]]]; [specialize (NU t' T'); lra|lra].
    + apply rgt_false in G. right. exists u. split; [split; [apply in_or_app; now left|]|split; [reflexivity|exact U]].
      intros t' T'. apply in_app_or in T' as [T'|[->|[]]]; [now apply NU|exact G].
Qed.

Section Face.
Variables (nd rs : nat) (node w : nat -> R) (ratio : R) (lob : nat -> nat -> R) (geom : geometry) (nominal_size : R) (d s : nat) (vert : nat -> arr).
Hypotheses (N : (2 <= nd <= 3)%nat) (RS : (2 <= rs)%nat) (DI : distinct rs node) (DD : (d < nd)%nat) (SS : (s < 2)%nat).
Local Notation nfq := (rs ^ (nd - 1))%nat.
Local Notation b := (basis_on rs node w ratio).
Local Notation lobpoint m l := (fun i => lob m (digit m (nd - 1) i l)).

Lemma nfq_is : snap_nfq nd rs = nfq. Proof using N RS. clear DD SS. unfold snap_nfq. apply pow_div; lia. Qed.
Definition up (l : nat) : nat := if (l <? d)%nat then l else S l.
Lemma up_spec l : (l < nd - 1)%nat -> (up l < nd)%nat /\ up l <> d. Proof. unfold up. destruct (Nat.ltb_spec l d); lia. Qed.
Lemma on_face_set s' y l x k : (l < nd - 1)%nat -> on_face_at d s' (at_coord y l x) k = setx (on_face_at d s' y) (up l) x k.
Proof.
  intros L. unfold on_face_at, at_coord, setx, up. destruct (Nat.ltb_spec k d), (Nat.ltb_spec l d); repeat (match goal with |- context [Nat.eqb ?a ?b] => destruct (Nat.eqb_spec a b) end); try lia; reflexivity.
Qed.
Lemma on_face_ext s' y y' k : (forall l, (l < nd - 1)%nat -> y l = y' l) -> (k < nd)%nat -> on_face_at d s' y k = on_face_at d s' y' k.
Proof. intros E K. unfold on_face_at. destruct (Nat.ltb_spec k d); [apply E; lia|]. destruct (Nat.eqb_spec k d); [reflexivity|]. apply E. lia. Qed.
(** the spanned face and the lines across it, as polynomials *)
Lemma span_poly v s' y l : (l < nd - 1)%nat -> exists a c, forall x, multilinear nd v (on_face_at d s' (at_coord y l x)) = c * x + a.
Proof.
  intros L. destruct (up_spec l L) as [U NE]. exists (multilinear nd v (setx (on_face_at d s' y) (up l) 0)), (tang nd v (up l) (on_face_at d s' y)). intros x.
  rewrite (multilinear_ext nd v v _ (setx (on_face_at d s' y) (up l) x)) by (reflexivity || (intros; now apply on_face_set)). rewrite multi_linear by assumption. ring.
Qed.
Lemma tang_poly v y l : (l < nd - 1)%nat -> exists a c, forall x, tang nd v d (on_face_at d 0 (at_coord y l x)) = c * x + a.
Proof.
  intros L. destruct (up_spec l L) as [U NE]. exists (tang nd v d (setx (on_face_at d 0 y) (up l) 0)), (tang nd v d (setx (on_face_at d 0 y) (up l) 1) - tang nd v d (setx (on_face_at d 0 y) (up l) 0)). intros x.
  rewrite (tang_ext nd v _ (setx (on_face_at d 0 y) (up l) x)) by (intros; now apply on_face_set). rewrite tang_linear by (assumption || congruence). ring.
Qed.

Variable adj0 : arr.
Hypothesis Z : forall k, adj0 k = 0.
Lemma lob_pos_is m s' l : (0 < m)%nat -> (s' < 2)%nat -> (l < m ^ (nd - 1))%nat -> lob_pos nd rs b node lob d vert m adj0 s' l = spanned nd vert d s' (lobpoint m l).
Proof.
  intros M S' L. unfold lob_pos, spanned. apply map_ext_in. intros r _. rewrite nfq_is. unfold to_lob. rewrite cube_through by (assumption || lia).
  rewrite (through_ext _ _ _ _ (fun k => (fun y => multilinear nd (vert r) (on_face_at d s' y)) (fun i => node (digit rs (nd - 1) i k))) _ (lobpoint m l)).
  - apply (through_exact (nd - 1) rs node ltac:(lia) DI (fun y => multilinear nd (vert r) (on_face_at d s' y)) (lobpoint m l)).
    + intros y y' E. apply multilinear_ext; [reflexivity|]. intros k K. now apply on_face_ext.
    + intros y i I. destruct (span_poly (vert r) s' y i I) as (a & c & E). apply (poly_ext rs (fun x => a + c * x)); [now apply linear_poly|]. intros x. rewrite E. ring.
  - intros k K. rewrite (face_position_is nd rs node w ratio (vert r) adj0 N RS DI d s DD SS (fun k _ => Z k) s' k S' K). rewrite Z. destruct (s' =? s)%nat; unfold face_coord; ring.
  - reflexivity.
Qed.
(** the face after the adjustments that belong to the shifts [h] of the points of the rule of [m] nodes *)
Lemma set_at a k : (k < nfq)%nat -> set_adjustments nd rs d s adj0 a ((2 * d + s) * nfq + k)%nat = a k.
Proof.
  intros K. unfold set_adjustments, snap_face. rewrite nfq_is. rewrite Nat.add_comm, Nat.div_add, Nat.mod_add, Nat.div_small, Nat.mod_small by lia. rewrite Nat.add_0_l, Nat.eqb_refl. reflexivity.
Qed.
Lemma set_other a k : (k / nfq <> 2 * d + s)%nat -> set_adjustments nd rs d s adj0 a k = adj0 k.
Proof. intros K. unfold set_adjustments, snap_face. rewrite nfq_is. apply Nat.eqb_neq in K. now rewrite K. Qed.
Lemma from_lob_is m h k : (2 <= m)%nat -> (k < nfq)%nat -> apply_cube (from_lob rs node lob m) (m ^ (nd - 1)) h k = through (nd - 1) m (lob m) h (fun i => node (digit rs (nd - 1) i k)).
Proof. intros M K. unfold from_lob. apply cube_through; assumption || lia. Qed.
Lemma snapped_at m h r l : (2 <= m)%nat -> (m + 1 <= rs)%nat -> distinct m (lob m) -> (l < m ^ (nd - 1))%nat ->
  through (nd - 1) rs node (face_position nd rs b node (vert r) (set_adjustments nd rs d s adj0 (apply_cube (from_lob rs node lob m) (m ^ (nd - 1)) h)) (2 * d + s)) (lobpoint m l)
  = multilinear nd (vert r) (on_face_at d s (lobpoint m l)) + h l * (multilinear nd (vert r) (on_face_at d 1 (lobpoint m l)) - multilinear nd (vert r) (on_face_at d 0 (lobpoint m l))).
Proof.
  intros M M1 DM L. set (F := fun y => multilinear nd (vert r) (on_face_at d s y) + through (nd - 1) m (lob m) h y * tang nd (vert r) d (on_face_at d 0 y)).
  rewrite (through_ext _ _ _ _ (fun k => F (fun i => node (digit rs (nd - 1) i k))) _ (lobpoint m l)); [|..|reflexivity].
  - rewrite through_exact; try assumption; try lia.
    + unfold F. rewrite through_node by (assumption || lia). f_equal. f_equal. unfold tang. f_equal; apply multilinear_ext; try reflexivity; intros k K; unfold setx, on_face_at; destruct (Nat.ltb_spec k d), (Nat.eqb_spec k d); try lia; try reflexivity; now cbn [INR].
    + intros y y' E. unfold F. f_equal; [|f_equal].
      * apply multilinear_ext; [reflexivity|]. intros k K. now apply on_face_ext.
      * now apply through_ext.
      * apply tang_ext. intros k K _. now apply on_face_ext.
    + intros y i I. destruct (span_poly (vert r) s y i I) as (a & c & E). destruct (tang_poly (vert r) y i I) as (a' & c' & E').
      apply (poly_ext rs (fun x => (a + c * x) + through (nd - 1) m (lob m) h (at_coord y i x) * (c' * x + a'))).
      * apply poly_plus; [now apply linear_poly|]. apply (poly_weaken_le (S m)); [lia|]. apply poly_linear. apply through_poly; lia.
      * intros x. unfold F. rewrite E, E'. ring.
  - intros k K. rewrite (face_position_is nd rs node w ratio (vert r) _ N RS DI d s DD SS) with (s' := s); try assumption.
    + rewrite Nat.eqb_refl, set_at, from_lob_is by assumption. reflexivity.
    + intros k' K'. rewrite set_other by exact K'. apply Z.
Qed.

(** ** slopes *)
Section Slopes.
Variables (A : (nat -> R) -> R) (a : arr).
Hypotheses (AE : forall y y', (forall l, (l < nd - 1)%nat -> y l = y' l) -> A y = A y') (AP : forall y l, (l < nd - 1)%nat -> poly rs (fun x => A (at_coord y l x)))
  (AV : forall k, (k < nfq)%nat -> a k = A (fun i => node (digit rs (nd - 1) i k))).
Local Notation dm := (mk_mat rs rs (b_diff b)).
Local Notation pt k := (fun l => node (digit rs (nd - 1) l k)).
Lemma slope_at l k : (l < nd - 1)%nat -> (k < nfq)%nat -> derivable_pt_lim (fun x => A (at_coord (pt k) l x)) (pt k l) (apply_dim dm nfq a l k).
Proof.
  intros L K. rewrite diff_at by lia. assert (DL : (digit rs (nd - 1) l k < rs)%nat) by (apply Nat.mod_upper_bound; lia).
  rewrite (rsum_ext rs _ (fun i => diff_mat rs node (digit rs (nd - 1) l k) i * (fun x => A (at_coord (pt k) l x)) (node i))).
  - apply differentiate; [exact DI|now apply AP|exact DL].
  - intros i I. change (b_diff b) with (py_derivative rs node). rewrite py_derivative_eq by assumption. f_equal. rewrite AV by (apply along_lt; assumption || lia). apply AE. intros c C. rewrite digit_along by (assumption || lia). unfold at_coord. now destruct (c =? l)%nat.
Qed.
Lemma slope_across k : nd = 3%nat -> (k < nfq)%nat -> exists E, (forall x, derivable_pt_lim (fun z => A (at_coord (at_coord (pt k) 1 x) 0 z)) (pt k 0%nat) (E x)) /\
  derivable_pt_lim E (pt k 1%nat) (apply_dim dm nfq (apply_dim dm nfq a 0) 1 k).
Proof.
  intros N3 K. set (E := fun x => rsum rs (fun i => diff_mat rs node (digit rs (nd - 1) 0 k) i * A (at_coord (at_coord (pt k) 1 x) 0 (node i)))). exists E.
  assert (D0 : (digit rs (nd - 1) 0 k < rs)%nat) by (apply Nat.mod_upper_bound; lia). assert (D1 : (digit rs (nd - 1) 1 k < rs)%nat) by (apply Nat.mod_upper_bound; lia). split.
  - intros x. exact (differentiate rs node (fun z => A (at_coord (at_coord (pt k) 1 x) 0 z)) _ DI (AP _ 0%nat ltac:(lia)) D0).
  - rewrite diff_at by lia. rewrite (rsum_ext rs _ (fun i => diff_mat rs node (digit rs (nd - 1) 1 k) i * E (node i))).
    + apply differentiate; [exact DI| |exact D1]. unfold E. apply (poly_rsum rs rs (fun i x => diff_mat rs node (digit rs (nd - 1) 0 k) i * A (at_coord (at_coord (pt k) 1 x) 0 (node i)))). intros i I. apply poly_scal.
      apply (poly_ext rs (fun x => A (at_coord (at_coord (pt k) 0 (node i)) 1 x))); [apply AP; lia|]. intros x. apply AE. intros l L. unfold at_coord. destruct (Nat.eqb_spec l 0), (Nat.eqb_spec l 1); (lia || reflexivity).
    + intros i I. change (b_diff b) with (py_derivative rs node). rewrite py_derivative_eq by assumption. f_equal. rewrite diff_at by lia. unfold E. rewrite digit_along by (assumption || lia). cbn [Nat.eqb]. apply rsum_ext. intros j J. rewrite py_derivative_eq by assumption. f_equal.
      pose proof (along_lt (nd - 1) rs 1 k i ltac:(lia) ltac:(lia) K I) as KI. rewrite AV by (apply along_lt; assumption || lia). apply AE. intros c C. rewrite digit_along by (assumption || lia). unfold at_coord. destruct (Nat.eqb_spec c 0); [reflexivity|]. rewrite digit_along by (assumption || lia). now destruct (c =? 1)%nat.
Qed.
Lemma steep_is : steep nd rs b a = true <-> steep_at (nd - 1) rs node A.
Proof.
  unfold steep. rewrite nfq_is, existsb_exists. split.
  - intros (f & I & X). apply existsb_exists in X as (k & K & G). apply in_seq in K. apply rgt_true in G. apply in_app_or in I as [I|I].
    + destruct (Nat.leb_spec 2 nd); [|destruct I]. destruct I as [<-|[]]. left. exists k, 0%nat, (apply_dim dm nfq a 0 k). split; [lia|]. split; [lia|]. split; [apply slope_at; lia|exact G].
    + destruct (Nat.eqb_spec nd 3) as [N3|]; [|destruct I]. destruct I as [<-|[<-|[]]].
      * left. exists k, 1%nat, (apply_dim dm nfq a 1 k). split; [lia|]. split; [lia|]. split; [apply slope_at; lia|exact G].
      * right. split; [lia|]. destruct (slope_across k N3 ltac:(lia)) as (E & E1 & E2). exists k, (apply_dim dm nfq (apply_dim dm nfq a 0) 1 k), E. split; [lia|]. split; [exact E1|]. split; [exact E2|exact G].
  - assert (OK : forall f k, In f (((if (2 <=? nd)%nat then [apply_dim dm nfq a 0] else []) ++ (if (nd =? 3)%nat then [apply_dim dm nfq a 1; apply_dim dm nfq (apply_dim dm nfq a 0) 1] else []))) -> (k < nfq)%nat -> 1 < Rabs (f k) ->
      exists x, In x ((if (2 <=? nd)%nat then [apply_dim dm nfq a 0] else []) ++ (if (nd =? 3)%nat then [apply_dim dm nfq a 1; apply_dim dm nfq (apply_dim dm nfq a 0) 1] else [])) /\ existsb (fun k => rgt (Rabs (x k)) 1) (seq 0 nfq) = true).
    { intros f k I K G. exists f. split; [exact I|]. apply existsb_exists. exists k. split; [apply in_seq; lia|now apply rgt_true]. }
    intros [(k & l & D & K & L & DE & G)|(N2 & k & D & E & K & E1 & E2 & G)].
    + assert (ED : D = apply_dim dm nfq a l k) by exact (uniqueness_limite _ _ _ _ DE (slope_at l k L K)). rewrite ED in G. apply (OK (apply_dim dm nfq a l) k); try assumption.
      apply in_or_app. destruct l as [|[|l]]; [|right|lia].
      * left. destruct (Nat.leb_spec 2 nd); [now left|lia].
      * destruct (Nat.eqb_spec nd 3); [now left|lia].
    + assert (N3 : nd = 3%nat) by lia. destruct (slope_across k N3 K) as (E' & E1' & E2'). assert (EE : forall x, E x = E' x) by (intros x; exact (uniqueness_limite _ _ _ _ (E1 x) (E1' x))).
      apply functional_extensionality in EE. subst E'. assert (ED : D = apply_dim dm nfq (apply_dim dm nfq a 0) 1 k) by exact (uniqueness_limite _ _ _ _ E2 E2'). rewrite ED in G.
      apply (OK (apply_dim dm nfq (apply_dim dm nfq a 0) 1) k); try assumption. apply in_or_app. right. rewrite N3. cbn. now right; left.
Qed.
End Slopes.
End Face.
