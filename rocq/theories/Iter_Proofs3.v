(** Proofs about GMRES: the whole algorithm. *)
From Coq Require Import Reals Arith Lia Lra Psatz List Bool Setoid Morphisms FunctionalExtensionality.
From Verif Require Import Outcome RSum Iter_Model Iter_Spec Iter_Proofs Iter_Proofs2.
Open Scope R_scope.

Lemma independent_mono n m m' v : (m <= m')%nat -> independent n m' v -> independent n m v.
Proof.
  intros H I c Hc j Hj. specialize (I (fun j => if j <? m then c j else 0)). rewrite <- comb_pad in I by auto.
  specialize (I Hc j ltac:(lia)). cbn beta in I. apply Nat.ltb_lt in Hj. now rewrite Hj in I.
Qed.

Lemma all_finite_true m h H : (forall i j, h i j = Some (H i j)) -> all_finite m h = true.
Proof.
  intros E. unfold all_finite. apply forallb_forall. intros i _. apply forallb_forall. intros j _. now rewrite E.
Qed.

Lemma all_finite_false m h j : (j < m)%nat -> h 0%nat j = None -> all_finite m h = false.
Proof.
  intros Hj E. destruct (all_finite m h) eqn:A; auto. unfold all_finite in A. rewrite forallb_forall in A.
  specialize (A 0%nat ltac:(apply in_seq; lia)). rewrite forallb_forall in A. specialize (A j ltac:(apply in_seq; lia)).
  now rewrite E in A.
Qed.

Section Equation.
  Variables (n : nat) (e : lineq).
  Hypothesis OK : linear_equation n e.

  #[local] Instance op_proper' : Proper (same n ==> same n) (op e) := op_proper n e OK.
  #[local] Instance ip_proper' : Proper (same n ==> same n ==> eq) (ip e) := ip_proper n e OK.
  #[local] Instance residual_proper' : Proper (same n ==> same n ==> same n) (residual e) := residual_proper n e OK.
  #[local] Instance sqnorm_proper : Proper (same n ==> eq) (sqnorm e).
  Proof. intros x y H. unfold sqnorm. now rewrite H. Qed.

  Notation ks := krylov_start.

  Lemma residual_comb b x c v k :
    same n (residual e b (lin 1 x 1 (comb k c v))) (lin 1 (residual e b x) (-1) (comb k c (fun j => op e (v j)))).
  Proof.
    unfold residual. rewrite (op_linear n e OK), (op_comb n e OK). intros i Hi. unfold lin. lra.
  Qed.

  (** The powers are independent as long as the vectors are finite. *)
  Lemma relations_independent r beta m v H st h :
    relations n e r beta m v H st h -> independent n m (power e r).
  Proof.
    intros Rel. pose proof (rel_on _ _ _ _ _ _ _ _ _ Rel) as O.
    assert (Lo : forall i j, (i < j)%nat -> (j < m)%nat -> ip e (power e r i) (v j) = 0).
    { intros i j Hi Hj. destruct (power_spans n e OK _ _ _ _ _ _ _ Rel i ltac:(lia)) as (c & Hc). rewrite Hc.
      rewrite (ip_comb_l n e OK), (rsum_ext _ _ (fun _ => 0)), rsum_0; auto. intros k Hk. rewrite O by lia.
      destruct (Nat.eqb_spec k j); [lia|]. lra. }
    assert (Di : forall j, (j < m)%nat -> ip e (power e r j) (v j) <> 0).
    { induction j as [|j IH]; intros Hj.
      - destruct (rel_r _ _ _ _ _ _ _ _ _ Rel) as (B & Er); [lia|]. cbn [power]. rewrite Er, (ip_scl_l n e OK), (O 0 0)%nat by lia.
        cbn. lra.
      - specialize (IH ltac:(lia)). destruct (power_spans n e OK _ _ _ _ _ _ _ Rel j ltac:(lia)) as (c & Hc).
        assert (Cj : ip e (power e r j) (v j) = c j).
        { rewrite Hc. apply (orthonormal_coef n e OK (S j) v c j); [|lia]. intros i k Hi Hk. apply O; lia. }
        cbn [power]. rewrite Hc, (op_comb n e OK), (ip_comb_l n e OK).
        assert (Eo : forall i, (i <= j)%nat -> ip e (op e (v i)) (v (S j)) = H (S j) i).
        { intros i Hi. rewrite (rel_op _ _ _ _ _ _ _ _ _ Rel i) by lia.
          destruct (Nat.eq_dec i j) as [->|Ei].
          - apply (orthonormal_coef n e OK (S (S j)) v (fun i => H i j) (S j)); [|lia]. intros a k Ha Hk. apply O; lia.
          - rewrite (ip_comb_l n e OK), (rsum_ext _ _ (fun _ => 0)), rsum_0.
            + symmetry. apply (rel_hess _ _ _ _ _ _ _ _ _ Rel). lia.
            + intros k Hk. rewrite O by lia. destruct (Nat.eqb_spec k (S j)); [lia|]. lra. }
        rewrite (rsum_single (S j) j); [|lia|].
        + rewrite Eo, <- Cj by lia. apply Rmult_integral_contrapositive_currified; auto.
          apply (rel_sub _ _ _ _ _ _ _ _ _ Rel). auto.
        + intros i Hi N. rewrite Eo by lia. rewrite (rel_hess _ _ _ _ _ _ _ _ _ Rel); [lra|lia]. }
    intros c Hc.
    assert (G : forall d j, (j < m)%nat -> (m - j <= d)%nat -> c j = 0).
    { induction d as [|d IH]; intros j Hj Hd; [lia|].
      assert (Z : ip e (comb m c (power e r)) (v j) = 0) by (rewrite Hc; apply (ip_zero_l n e OK)).
      rewrite (ip_comb_l n e OK), (rsum_single m j) in Z; auto.
      - apply Rmult_integral in Z. destruct Z as [Z|Z]; auto. exfalso. now apply (Di j).
      - intros i Hi N. destruct (Nat.lt_ge_cases i j).
        + rewrite Lo by lia. lra.
        + rewrite (IH i) by lia. lra. }
    intros j Hj. apply (G m j Hj). lia.
  Qed.

  (** The residual in terms of the matrix. *)
  Lemma residual_matrix r beta m v H st h b x y :
    relations n e r beta m v H st h -> (0 < m)%nat -> same n r (residual e b x) ->
    same n (residual e b (lin 1 x 1 (comb m y v)))
      (comb (S m) (fun i => (if i =? 0 then beta else 0) - rsum m (fun j => H i j * y j)) v).
  Proof.
    intros Rel Hm Er. rewrite residual_comb, <- Er. destruct (rel_r _ _ _ _ _ _ _ _ _ Rel Hm) as (_ & E0). rewrite E0.
    assert (Ec : same n (comb m y (fun j => op e (v j))) (comb m y (fun j => comb (S m) (fun i => H i j) v))).
    { apply comb_same; auto. intros j Hj. rewrite (rel_op _ _ _ _ _ _ _ _ _ Rel j Hj).
      rewrite (comb_pad (S (S j)) (S m)) by lia. apply comb_same; [|reflexivity]. intros i Hi.
      destruct (Nat.ltb_spec i (S (S j))); auto. symmetry. apply (rel_hess _ _ _ _ _ _ _ _ _ Rel). lia. }
    rewrite Ec. intros i Hi. unfold lin, scl, comb.
    assert (E1 : rsum m (fun j => y j * rsum (S m) (fun k => H k j * v k i))
               = rsum (S m) (fun k => rsum m (fun j => H k j * y j) * v k i)).
    { transitivity (rsum m (fun j => rsum (S m) (fun k => y j * (H k j * v k i)))).
      - apply rsum_ext. intros j Hj. now rewrite rsum_scal.
      - rewrite rsum_swap. apply rsum_ext. intros k Hk. rewrite <- rsum_scal_r. apply rsum_ext. intros. lra. }
    rewrite E1.
    assert (E2 : beta * v 0%nat i = rsum (S m) (fun k => (if k =? 0 then beta else 0) * v k i)).
    { rewrite (rsum_single (S m) 0); [reflexivity|lia|]. intros k Hk N. apply Nat.eqb_neq in N. rewrite N. lra. }
    rewrite E2, <- rsum_scal, <- rsum_scal, <- rsum_plus. apply rsum_ext. intros. lra.
  Qed.

  (** The final loop. *)
  Lemma add_loop st x (y : nat -> R) v m (coefs : nat -> option R) :
    (ks + m <= n_vecs e)%nat -> st 0%nat = Some x -> (forall j, (j < m)%nat -> st (ks + j)%nat = Some (v j)) ->
    (forall j, (j < m)%nat -> coefs j = Some (y j)) ->
    forall k, (k <= m)%nat -> exists st' x',
      loopn (fun iter st => e_add e 0 (Some 1) 0 (coefs iter) (ks + iter) st) k st = Ok st'
      /\ st' 0%nat = Some x' /\ same n x' (lin 1 x 1 (comb k y v)) /\ (forall i, (0 < i)%nat -> st' i = st i).
  Proof.
    intros N X V C. induction k as [|k IH]; intros Hk.
    - exists st, x. cbn [loopn]. repeat split; auto. intros i Hi. unfold lin, comb. cbn. lra.
    - destruct IH as (st' & x' & E & X' & Ex & F); [lia|]. rewrite loopn_S, E. cbn [bind]. unfold e_add.
      assert (ks = 3%nat) by reflexivity. rewrite !within_ok by lia. rewrite X', C by lia. rewrite F by lia. rewrite V by lia.
      eexists _, _. split; [reflexivity|]. rewrite put_eq. split; [reflexivity|]. split.
      + rewrite Ex, comb_S. intros i Hi. unfold lin. lra.
      + intros i Hi. rewrite put_neq by lia. auto.
  Qed.

  Lemma add_loop_nan st m (coefs : nat -> option R) :
    (ks + m <= n_vecs e)%nat -> (forall j, (j < m)%nat -> coefs j = None) ->
    forall k, (k <= m)%nat -> exists st',
      loopn (fun iter st => e_add e 0 (Some 1) 0 (coefs iter) (ks + iter) st) k st = Ok st'
      /\ ((0 < k)%nat -> st' 0%nat = None) /\ (forall i, (0 < i)%nat -> st' i = st i).
  Proof.
    intros N C. induction k as [|k IH]; intros Hk.
    - exists st. cbn [loopn]. repeat split; auto. lia.
    - destruct IH as (st' & E & X' & F); [lia|]. rewrite loopn_S, E. cbn [bind]. unfold e_add.
      assert (ks = 3%nat) by reflexivity. rewrite !within_ok by lia. rewrite C by lia.
      eexists. split; [reflexivity|]. rewrite put_eq. split; [destruct (st' 0%nat); reflexivity|].
      intros i Hi. rewrite put_neq by lia. auto.
  Qed.

  Lemma cycle_ok lsq m st b x :
    (ks + m < n_vecs e)%nat -> least_squares m (lsq m) ->
    st 0%nat = Some x -> st 1%nat = Some b ->
    exists st', gmres_cycle lsq e m st = Ok st' /\ st' 1%nat = Some b
      /\ ((exists x', st' 0%nat = Some x' /\ krylov_optimal n e m b x x' /\ independent n m (power e (residual e b x)))
          \/ (st' 0%nat = None /\ ~ independent n m (power e (residual e b x)))).
  Proof.
    intros N LS X B. assert (K3 : ks = 3%nat) by reflexivity.
    unfold gmres_cycle. unfold e_matvec. rewrite !within_ok by lia. rewrite X. cbn [bind option_map].
    unfold e_add at 1. rewrite !within_ok by lia. rewrite put_eq, put_neq, B by lia. cbn [bind].
    set (st2 := put (put st 2 (Some (op e x))) 2 (Some (lin (-1) (op e x) 1 b))).
    assert (S2 : st2 2%nat = Some (lin (-1) (op e x) 1 b)) by apply put_eq.
    assert (F2 : forall i, i <> 2%nat -> st2 i = st i) by (intros i Hi; unfold st2; now rewrite !put_neq).
    set (r' := lin (-1) (op e x) 1 b) in *. set (r := residual e b x).
    assert (Er : same n r' r) by (intros i Hi; unfold r', r, residual, lin; lra).
    unfold e_norm, e_inner. rewrite !within_ok by lia. rewrite S2. cbn [bind].
    assert (Pr : 0 <= ip e r r) by apply (ip_positive n e OK).
    assert (Ei : ip e r' r' = ip e r r) by now rewrite Er. rewrite Ei.
    unfold dsqrt. destruct (Rlt_dec (ip e r r) 0) as [L|_]; [lra|]. set (beta := sqrt (ip e r r)).
    unfold e_scale. rewrite !within_ok by lia. rewrite S2. cbn [bind ddiv].
    set (st3 := put st2 ks _).
    assert (F3 : forall i, (i < 2)%nat -> st3 i = st i) by (intros i Hi; unfold st3; rewrite put_neq by lia; apply F2; lia).
    destruct (arnoldi_loop n e OK r beta st3 m N) with (k := m) as (s4 & h & E4 & F4 & I); auto.
    { intros Z. unfold st3. rewrite put_eq. destruct (Req_EM_T beta 0) as [_|Z']; [|contradiction]. split; auto.
      apply (ip_definite n e OK). apply sqrt_eq_0; auto. }
    { intros Z. unfold st3. rewrite put_eq. destruct (Req_EM_T beta 0) as [Z'|_]; [contradiction|].
      eexists. split; [reflexivity|]. split.
      - rewrite (ip_scl_l n e OK), (ip_symmetric n e OK), (ip_scl_l n e OK), Ei. rewrite <- (sqrt_sqrt (ip e r r)) by auto.
        fold beta. field. auto.
      - rewrite <- Er. intros i Hi. unfold scl. field. auto. }
    change (Ok (st3, fun _ _ : nat => Some 0)) with (@Ok (store * dmat) (st3, fun _ _ => Some 0)).
    rewrite E4. cbn [bind fst snd].
    assert (X4 : s4 0%nat = Some x) by (rewrite F4, F3 by lia; auto).
    assert (B4 : s4 1%nat = Some b) by (rewrite F4, F3 by lia; auto).
    destruct (Nat.eq_dec m 0) as [->|Hm].
    { cbn [loopn]. exists s4. split; [reflexivity|]. split; auto. left. exists x. split; auto. split.
      - split; [exists (fun _ => 0); intros i Hi; unfold lin, comb; cbn; lra|]. intros c. apply Req_le.
        apply sqnorm_proper. apply residual_proper'; [reflexivity|]. intros i Hi. unfold lin, comb. cbn. lra.
      - intros c _ j Hj. lia. }
    assert (Fin : forall v H, relations n e r beta m v H s4 h ->
      (forall c, sqnorm e (comb (S m) (fun i => (if i =? 0 then beta else 0) - rsum m (fun j => H i j * c j)) v)
               = rsum (m + 1) (fun i => (rsum m (fun j => H i j * c j) - (if i =? 0 then beta else 0)) ^ 2)) ->
      exists st', loopn (fun iter st => e_add e 0 (Some 1) 0 (solve lsq m h (Some beta) iter) (ks + iter) st) m s4 = Ok st'
        /\ st' 1%nat = Some b
        /\ exists x', st' 0%nat = Some x' /\ krylov_optimal n e m b x x' /\ independent n m (power e r)).
    { intros v H Rel Nn.
      set (y := lsq m (fun i j => entry (h i j)) (fun i => if i =? 0 then beta else 0)).
      destruct (add_loop s4 x y v m (solve lsq m h (Some beta))) with (k := m) as (st' & x' & E & X' & Ex & F); auto; [lia| | |].
      { apply (rel_st _ _ _ _ _ _ _ _ _ Rel). }
      { intros j Hj. unfold solve. now rewrite (all_finite_true m h H (rel_h _ _ _ _ _ _ _ _ _ Rel)). }
      exists st'. split; [exact E|]. split; [rewrite F by lia; auto|]. exists x'. split; auto.
      split; [|eapply relations_independent; eauto]. split.
      - fold r.
        assert (Sp : spans n m (power e r) (comb m y v)).
        { apply spans_comb. intros j Hj. eapply spans_mono; [|eapply (basis_spans n e OK); eauto]. lia. }
        destruct Sp as (c & Hc). exists c. now rewrite Ex, Hc.
      - fold r. intros c.
        assert (Sp : spans n m v (comb m c (power e r))).
        { apply spans_comb. intros j Hj. eapply spans_mono; [|eapply (power_spans n e OK); eauto]. lia. }
        destruct Sp as (d & Hd). rewrite Ex, Hd.
        rewrite 2 (residual_matrix r beta m v H s4 h b x) by (auto; try lia; reflexivity).
        rewrite 2 Nn. pose proof (LS (fun i j => entry (h i j)) (fun i => if i =? 0 then beta else 0) d) as L.
        fold y in L.
        assert (Eh : forall z, rsum (m + 1) (fun i => (rsum m (fun j => entry (h i j) * z j) - (if i =? 0 then beta else 0)) ^ 2)
                     = rsum (m + 1) (fun i => (rsum m (fun j => H i j * z j) - (if i =? 0 then beta else 0)) ^ 2)).
        { intros z. apply rsum_ext. intros i Hi. f_equal. f_equal. apply rsum_ext. intros j Hj.
          now rewrite (rel_h _ _ _ _ _ _ _ _ _ Rel). }
        rewrite 2 Eh in L. exact L. }
    destruct I as [(v & H & Rel & Vk & O & Hn & Bn & E0)|[(v & H & Rel & Vk & Zk & Hz & NI)|(Vk & j & Hj & Hn & NI)]].
    - destruct (Fin v H Rel) as (st' & E & B' & R'); [|exists st'; auto].
      intros c. rewrite (orthonormal_norm n e OK) by auto. replace (m + 1)%nat with (S m) by lia.
      apply rsum_ext. intros. lra.
    - destruct (Fin v H Rel) as (st' & E & B' & R'); [|exists st'; auto].
      intros c. rewrite comb_S, Zk.
      match goal with |- sqnorm e (lin 1 ?a ?b' zero) = _ => assert (Ez : same n (lin 1 a b' zero) a) by (intros i Hi; unfold lin, zero; lra); rewrite Ez end.
      rewrite (orthonormal_norm n e OK) by apply (rel_on _ _ _ _ _ _ _ _ _ Rel).
      replace (m + 1)%nat with (S m) by lia. cbn [rsum].
      rewrite (rsum_ext m (fun j => H m j * c j) (fun _ => 0)), rsum_0.
      + destruct (Nat.eqb_spec m 0); [lia|]. replace ((0 - 0) ^ 2) with 0 by ring. rewrite Rplus_0_r. apply rsum_ext. intros. lra.
      + intros j Hj. destruct (Nat.eq_dec j (m - 1)) as [->|N'].
        * rewrite Hz by lia. lra.
        * rewrite (rel_hess _ _ _ _ _ _ _ _ _ Rel) by lia. lra.
    - destruct (add_loop_nan s4 m (solve lsq m h (Some beta))) with (k := m) as (st' & E & X' & F); auto; [lia| |].
      { intros k Hk. unfold solve. now rewrite (all_finite_false m h j). }
      exists st'. split; [exact E|]. split; [rewrite F by lia; auto|]. right. split; [apply X'; lia|].
      intros In. apply NI. eapply independent_mono; [|exact In]. lia.
  Qed.

  (** A vector that is not finite stays so. *)
  Lemma cycle_nan lsq m st : (ks + m < n_vecs e)%nat -> st 0%nat = None ->
    exists st', gmres_cycle lsq e m st = Ok st' /\ st' 0%nat = None /\ st' 1%nat = st 1%nat.
  Proof.
    intros N X. assert (K3 : ks = 3%nat) by reflexivity.
    unfold gmres_cycle. unfold e_matvec. rewrite !within_ok by lia. rewrite X. cbn [bind option_map].
    unfold e_add at 1. rewrite !within_ok by lia. rewrite put_eq. cbn [bind].
    unfold e_norm, e_inner. rewrite !within_ok by lia. rewrite put_eq. cbn [bind dsqrt].
    unfold e_scale. rewrite !within_ok by lia. cbn [bind ddiv].
    set (st3 := put _ ks None).
    assert (F3 : forall i, (i < 2)%nat -> st3 i = st i) by (intros i Hi; unfold st3; now rewrite !put_neq by lia).
    assert (L : forall k, (k <= m)%nat -> exists (s : store) (h : dmat),
      loopn (arnoldi e) k (st3, fun _ _ => Some 0) = Ok (s, h) /\ s (ks + k)%nat = None /\ forall i, (i < 2)%nat -> s i = st i).
    { induction k as [|k IH]; intros Hk.
      - exists st3, (fun _ _ => Some 0). cbn [loopn]. split; [reflexivity|]. split; [|exact F3]. unfold st3. rewrite Nat.add_0_r. apply put_eq.
      - destruct IH as (s & h & E & Z & F); [lia|]. rewrite loopn_S, E. cbn [bind].
        destruct (arnoldi_nan e k s h) as (st' & h' & Ea & Fa & Va & _); auto; [lia|].
        exists st', h'. split; [exact Ea|]. split; [replace (ks + S k)%nat with (ks + k + 1)%nat by lia; auto|].
        intros i Hi. rewrite Fa by lia. auto. }
    destruct (L m (le_n m)) as (s & h & E & _ & F). rewrite E. cbn [bind fst snd].
    assert (G : forall k, (k <= m)%nat -> exists st', loopn (fun iter st => e_add e 0 (Some 1) 0 (solve lsq m h None iter) (ks + iter) st) k s = Ok st'
      /\ st' 0%nat = None /\ st' 1%nat = st 1%nat).
    { induction k as [|k IH]; intros Hk.
      - exists s. cbn [loopn]. split; [reflexivity|]. rewrite !F by lia. auto.
      - destruct IH as (st' & E' & X' & F'); [lia|]. rewrite loopn_S, E'. cbn [bind]. unfold e_add. rewrite !within_ok by lia.
        eexists. split; [reflexivity|]. rewrite put_eq, X', put_neq by lia. auto. }
    apply (G m). auto.
  Qed.
End Equation.
