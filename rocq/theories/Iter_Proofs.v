(** Proofs about the iterative solvers: linear algebra, GMRES. *)
From Coq Require Import Reals Arith Lia Lra Psatz List Bool Setoid Morphisms FunctionalExtensionality.
From Verif Require Import Outcome RSum Iter_Model Iter_Spec.
Open Scope R_scope.

#[global] Instance same_equiv n : Equivalence (same n).
Proof.
  split.
  - intros x i H. reflexivity.
  - intros x y H i Hi. symmetry. now apply H.
  - intros x y z H1 H2 i Hi. rewrite H1 by auto. now apply H2.
Qed.

#[global] Instance lin_proper n : Proper (eq ==> same n ==> eq ==> same n ==> same n) lin.
Proof. intros a a' <- x x' Hx b b' <- y y' Hy i Hi. unfold lin. now rewrite Hx, Hy. Qed.

Lemma comb_same n m c v c' v' :
  (forall j, (j < m)%nat -> c j = c' j) -> (forall j, (j < m)%nat -> same n (v j) (v' j)) ->
  same n (comb m c v) (comb m c' v').
Proof. intros Hc Hv i Hi. apply rsum_ext. intros j Hj. rewrite Hc, Hv by auto. reflexivity. Qed.

Lemma comb_S m c v : comb (S m) c v = lin 1 (comb m c v) (c m) (v m).
Proof. apply functional_extensionality. intros i. unfold comb, lin. cbn. lra. Qed.

Lemma comb_lin m a c b d v : comb m (fun j => a * c j + b * d j) v = lin a (comb m c v) b (comb m d v).
Proof.
  apply functional_extensionality. intros i. unfold comb, lin. rewrite <- 2 rsum_scal, <- rsum_plus.
  apply rsum_ext. intros. lra.
Qed.

Lemma comb_unit m k v : (k < m)%nat -> comb m (fun j => if j =? k then 1 else 0) v = v k.
Proof.
  intros H. apply functional_extensionality. intros i. unfold comb. rewrite (rsum_single m k); auto.
  - rewrite Nat.eqb_refl. lra.
  - intros j Hj E. apply Nat.eqb_neq in E. rewrite E. lra.
Qed.

Lemma rsum_pad m m' f : (m <= m')%nat -> rsum m f = rsum m' (fun j => if j <? m then f j else 0).
Proof.
  intros H. replace m' with (m + (m' - m))%nat by lia. rewrite rsum_app.
  rewrite (rsum_ext (m' - m) _ (fun _ => 0)), rsum_0.
  - rewrite Rplus_0_r. apply rsum_ext. intros j Hj. apply Nat.ltb_lt in Hj. now rewrite Hj.
  - intros j Hj. destruct (Nat.ltb_spec (m + j) m); [lia|reflexivity].
Qed.

Lemma comb_pad m m' c v : (m <= m')%nat -> comb m c v = comb m' (fun j => if j <? m then c j else 0) v.
Proof.
  intros H. apply functional_extensionality. intros i. unfold comb. rewrite (rsum_pad m m') by auto.
  apply rsum_ext. intros j Hj. destruct (j <? m); lra.
Qed.

(** ** Dimension *)

Lemma rsum_skip n p f : (p <= n)%nat ->
  rsum (S n) f = f p + rsum n (fun j => f (if j <? p then j else S j)).
Proof.
  revert p. induction n as [|n IH]; intros p Hp.
  - replace p with 0%nat by lia. cbn. lra.
  - destruct (Nat.eq_dec p (S n)) as [->|E].
    + change (rsum (S (S n)) f) with (rsum (S n) f + f (S n)). rewrite Rplus_comm. f_equal. apply rsum_ext. intros j Hj.
      destruct (Nat.ltb_spec j (S n)); [reflexivity|lia].
    + change (rsum (S (S n)) f) with (rsum (S n) f + f (S n)). rewrite (IH p) by lia. cbn [rsum].
      destruct (Nat.ltb_spec n p); [lia|]. lra.
Qed.

Lemma classic_dec_all m (f : nat -> R) : {p | (p < m)%nat /\ f p <> 0} + {forall j, (j < m)%nat -> f j = 0}.
Proof.
  induction m as [|m [(p & H & E)|IH]].
  - right. intros j Hj. lia.
  - left. exists p. split; [lia|auto].
  - destruct (Req_EM_T (f m) 0) as [E|E].
    + right. intros j Hj. destruct (Nat.eq_dec j m) as [->|N]; auto. apply IH. lia.
    + left. exists m. split; [lia|auto].
Qed.

(** [n + 1] vectors with [n] coordinates are dependent. *)
Lemma dependent n (v : nat -> vec) :
  exists c, (exists j, (j < S n)%nat /\ c j <> 0) /\ same n (comb (S n) c v) zero.
Proof.
  revert v. induction n as [|n IH]; intros v.
  - exists (fun _ => 1). split; [exists 0%nat; split; [lia|lra]|]. intros i Hi. lia.
  - destruct (classic_dec_all (S (S n)) (fun j => v j n)) as [(p & Hp & Ep)|Z].
    2: { destruct (IH v) as (c & (j & Hj & Ej) & Hc).
         exists (fun j => if j <? S n then c j else 0). split.
         - exists j. split; [lia|]. apply Nat.ltb_lt in Hj. now rewrite Hj.
         - rewrite <- comb_pad by lia. intros i Hi. destruct (Nat.eq_dec i n) as [->|E]; [|apply Hc; lia].
           unfold comb, zero. rewrite (rsum_ext _ _ (fun _ => 0)), rsum_0; auto. intros k Hk. rewrite Z by lia. lra. }
    set (sk := fun j => if j <? p then j else S j).
    set (w := fun j => lin 1 (v (sk j)) (- (v (sk j) n / v p n)) (v p)).
    destruct (IH w) as (c & (j & Hj & Ej) & Hc).
    set (un := fun j => if j <? p then j else (j - 1)%nat).
    set (cp := rsum (S n) (fun j => - (c j * (v (sk j) n / v p n)))).
    exists (fun j => if j =? p then cp else c (un j)). split.
    + exists (sk j). split.
      * unfold sk. destruct (j <? p); lia.
      * unfold sk, un. destruct (Nat.ltb_spec j p).
        -- destruct (Nat.eqb_spec j p); [lia|]. destruct (Nat.ltb_spec j p); [auto|lia].
        -- destruct (Nat.eqb_spec (S j) p); [lia|]. destruct (Nat.ltb_spec (S j) p); [lia|].
           now replace (S j - 1)%nat with j by lia.
    + assert (G : forall i, comb (S (S n)) (fun j => if j =? p then cp else c (un j)) v i = comb (S n) c w i).
      { intros i. unfold comb. rewrite (rsum_skip (S n) p) by lia. rewrite Nat.eqb_refl. unfold cp.
        rewrite <- rsum_scal_r, <- rsum_plus. apply rsum_ext. intros k Hk. unfold w, lin. fold (sk k).
        replace (if sk k =? p then _ else c (un (sk k))) with (c k). 1: lra.
        unfold sk, un. destruct (Nat.ltb_spec k p).
        - destruct (Nat.eqb_spec k p); [lia|]. destruct (Nat.ltb_spec k p); [auto|lia].
        - destruct (Nat.eqb_spec (S k) p); [lia|]. destruct (Nat.ltb_spec (S k) p); [lia|].
          now replace (S k - 1)%nat with k by lia. }
      intros i Hi. rewrite G. destruct (Nat.eq_dec i n) as [->|E]; [|apply Hc; lia].
      unfold comb, zero. rewrite (rsum_ext _ _ (fun _ => 0)), rsum_0; auto.
      intros k Hk. unfold w, lin. field_simplify; auto.
Qed.

(** ** Spans *)

Definition spans (n m : nat) (v : nat -> vec) (x : vec) : Prop := exists c, same n x (comb m c v).

Lemma spans_same n m v x y : same n x y -> spans n m v x -> spans n m v y.
Proof. intros E (c & H). exists c. now rewrite <- E. Qed.

Lemma spans_lin n m v a x b y : spans n m v x -> spans n m v y -> spans n m v (lin a x b y).
Proof.
  intros (c & Hc) (d & Hd). exists (fun j => a * c j + b * d j). rewrite comb_lin. now rewrite Hc, Hd.
Qed.

Lemma spans_unit n m v k : (k < m)%nat -> spans n m v (v k).
Proof. intros H. exists (fun j => if j =? k then 1 else 0). now rewrite comb_unit. Qed.

Lemma spans_mono n m m' v x : (m <= m')%nat -> spans n m v x -> spans n m' v x.
Proof. intros H (c & Hc). exists (fun j => if j <? m then c j else 0). now rewrite <- comb_pad. Qed.

Lemma spans_zero n m v : spans n m v zero.
Proof.
  exists (fun _ => 0). intros i Hi. unfold comb, zero. rewrite (rsum_ext _ _ (fun _ => 0)), rsum_0; auto. intros. lra.
Qed.

Lemma spans_comb n m v k c w : (forall j, (j < k)%nat -> spans n m v (w j)) -> spans n m v (comb k c w).
Proof.
  induction k as [|k IH]; intros H.
  - apply (spans_same n m v zero); [|apply spans_zero]. intros i Hi. reflexivity.
  - rewrite comb_S. apply spans_lin; [apply IH; intros; apply H; lia|apply H; lia].
Qed.

Lemma spans_trans n m v k w x : spans n k w x -> (forall j, (j < k)%nat -> spans n m v (w j)) -> spans n m v x.
Proof. intros (c & Hc) H. eapply spans_same; [symmetry; exact Hc|]. now apply spans_comb. Qed.

(** [n] independent vectors with [n] coordinates span everything. *)
Lemma independent_spans n v x : independent n n v -> spans n n v x.
Proof.
  intros Hi. destruct (dependent n (fun j => if j =? n then x else v j)) as (c & (j & Hj & Ej) & Hc).
  assert (Ec : same n (comb n c (fun j => if j =? n then x else v j)) (comb n c v)).
  { apply comb_same; auto. intros k Hk. destruct (Nat.eqb_spec k n); [lia|reflexivity]. }
  destruct (Req_EM_T (c n) 0) as [E|E].
  - exfalso. apply Ej. destruct (Nat.eq_dec j n) as [->|N]; auto. apply Hi; [|lia].
    rewrite comb_S in Hc. rewrite Ec, E in Hc. rewrite <- Hc. intros i Hi'. unfold lin. lra.
  - exists (fun k => - / c n * c k). rewrite comb_S, Nat.eqb_refl, Ec in Hc.
    intros i Hi'. specialize (Hc i Hi'). unfold lin, zero in Hc. unfold comb in *.
    rewrite (rsum_ext _ _ (fun k => - / c n * (c k * v k i))) by (intros; lra). rewrite rsum_scal.
    apply (Rmult_eq_reg_l (c n)); auto. field_simplify; auto. lra.
Qed.

Section Equation.
  Variables (n : nat) (e : lineq).
  Hypothesis OK : linear_equation n e.

  #[local] Instance op_proper : Proper (same n ==> same n) (op e).
  Proof. intros x y H. now apply (op_local n e OK). Qed.

  #[local] Instance ip_proper : Proper (same n ==> same n ==> eq) (ip e).
  Proof.
    intros x x' Hx y y' Hy. rewrite (ip_local n e OK x x' y Hx), (ip_symmetric n e OK), (ip_local n e OK y y' x' Hy).
    apply (ip_symmetric n e OK).
  Qed.

  #[local] Instance residual_proper : Proper (same n ==> same n ==> same n) (residual e).
  Proof. intros b b' Hb x x' Hx. unfold residual. now rewrite Hb, Hx. Qed.

  Lemma ip_zero_l y : ip e zero y = 0.
  Proof.
    rewrite (ip_local n e OK zero (lin 0 zero 0 zero)) by (intros i Hi; unfold lin, zero; lra).
    rewrite (ip_linear n e OK). lra.
  Qed.

  Lemma ip_lin_r a x b y z : ip e z (lin a x b y) = a * ip e z x + b * ip e z y.
  Proof. rewrite !(ip_symmetric n e OK z). apply (ip_linear n e OK). Qed.

  Lemma ip_comb_l m c v z : ip e (comb m c v) z = rsum m (fun j => c j * ip e (v j) z).
  Proof.
    induction m as [|m IH].
    - change (comb 0 c v) with zero. apply ip_zero_l.
    - rewrite comb_S, (ip_linear n e OK), IH. cbn [rsum]. lra.
  Qed.

  Lemma ip_comb_r m c v z : ip e z (comb m c v) = rsum m (fun j => c j * ip e z (v j)).
  Proof. rewrite (ip_symmetric n e OK), ip_comb_l. apply rsum_ext. intros. now rewrite (ip_symmetric n e OK). Qed.

  Lemma op_zero : same n (op e zero) zero.
  Proof.
    transitivity (op e (lin 0 zero 0 zero)).
    - apply (op_local n e OK). intros i Hi. unfold lin, zero. lra.
    - rewrite (op_linear n e OK). intros i Hi. unfold lin, zero. lra.
  Qed.

  Lemma op_comb m c v : same n (op e (comb m c v)) (comb m c (fun j => op e (v j))).
  Proof.
    induction m as [|m IH].
    - change (comb 0 c v) with zero. rewrite op_zero. reflexivity.
    - rewrite 2 comb_S, (op_linear n e OK), IH. reflexivity.
  Qed.

  (** Orthonormal vectors. *)
  Definition orthonormal (m : nat) (v : nat -> vec) : Prop :=
    forall i j, (i < m)%nat -> (j < m)%nat -> ip e (v i) (v j) = if i =? j then 1 else 0.

  Lemma orthonormal_coef m v c k : orthonormal m v -> (k < m)%nat -> ip e (comb m c v) (v k) = c k.
  Proof.
    intros O H. rewrite ip_comb_l. rewrite (rsum_single m k); auto.
    - rewrite O, Nat.eqb_refl by auto. lra.
    - intros j Hj N. rewrite O by auto. apply Nat.eqb_neq in N. rewrite N. lra.
  Qed.

  Lemma orthonormal_independent m v : orthonormal m v -> independent n m v.
  Proof.
    intros O c H j Hj. rewrite <- (orthonormal_coef m v c j O Hj). rewrite H. apply ip_zero_l.
  Qed.

  Lemma orthonormal_norm m v c : orthonormal m v -> sqnorm e (comb m c v) = rsum m (fun j => c j ^ 2).
  Proof.
    intros O. unfold sqnorm. rewrite ip_comb_r. apply rsum_ext. intros j Hj. rewrite orthonormal_coef by auto. lra.
  Qed.
End Equation.
