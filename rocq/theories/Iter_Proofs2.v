(** Proofs about GMRES. *)
From Coq Require Import Reals Arith Lia Lra Psatz List Bool Setoid Morphisms FunctionalExtensionality.
From Verif Require Import Outcome RSum Iter_Model Iter_Spec Iter_Proofs.
Open Scope R_scope.

Lemma put_eq st i x : put st i x i = x.
Proof. unfold put. now rewrite Nat.eqb_refl. Qed.
Lemma put_neq st i x j : j <> i -> put st i x j = st j.
Proof. unfold put. intros H. apply Nat.eqb_neq in H. now rewrite H. Qed.
Lemma mput_eq h i j x : mput h i j x i j = x.
Proof. unfold mput. now rewrite !Nat.eqb_refl. Qed.
Lemma mput_neq h i j x i' j' : (i' <> i \/ j' <> j)%nat -> mput h i j x i' j' = h i' j'.
Proof.
  unfold mput. intros H. destruct (Nat.eqb_spec i' i), (Nat.eqb_spec j' j); cbn; auto. lia.
Qed.

Lemma within_ok {A} e i (k : outcome A) : (i < n_vecs e)%nat -> within e i k = k.
Proof. unfold within. intros H. apply Nat.ltb_lt in H. now rewrite H. Qed.

Lemma loopn_S {A} (f : nat -> A -> outcome A) m s : loopn f (S m) s = bind (loopn f m s) (f m).
Proof. reflexivity. Qed.

(** The vector [1/|u| u] when [u] is not zero. *)
Section Equation.
  Variables (n : nat) (e : lineq).
  Hypothesis OK : linear_equation n e.

  #[local] Instance op_proper' : Proper (same n ==> same n) (op e) := op_proper n e OK.
  #[local] Instance ip_proper' : Proper (same n ==> same n ==> eq) (ip e) := ip_proper n e OK.
  #[local] Instance residual_proper' : Proper (same n ==> same n ==> same n) (residual e) := residual_proper n e OK.

  Notation ks := krylov_start.

  Lemma ip_scl_l a x z : ip e (scl a x) z = a * ip e x z.
  Proof.
    rewrite (ip_local n e OK (scl a x) (lin a x 0 x)) by (intros i Hi; unfold scl, lin; lra).
    rewrite (ip_linear n e OK). lra.
  Qed.

  (** *** Orthogonalization *)

  Lemma ortho_loop k (st : store) (h : dmat) v w :
    (ks + k + 1 < n_vecs e)%nat ->
    (forall j, (j <= k)%nat -> st (ks + j)%nat = Some (v j)) -> st (ks + k + 1)%nat = Some w ->
    orthonormal e (S k) v ->
    forall c, (c <= k + 1)%nat -> exists (st' : store) (h' : dmat) g u,
      loopn (ortho e k) c (st, h) = Ok (st', h')
      /\ (forall i, i <> (ks + k + 1)%nat -> st' i = st i) /\ st' (ks + k + 1)%nat = Some u
      /\ (forall i j, h' i j = if andb (j =? k) (i <? c) then Some (g i) else h i j)
      /\ same n w (lin 1 u 1 (comb c g v))
      /\ (forall i, (i < c)%nat -> ip e u (v i) = 0).
  Proof.
    intros N V W O. induction c as [|c IH]; intros C.
    - exists st, h, (fun _ => 0), w. cbn [loopn]. repeat split; auto.
      + intros i j. rewrite andb_false_r. reflexivity.
      + intros i Hi. unfold lin, comb. cbn. lra.
      + intros i Hi. lia.
    - destruct IH as (st' & h' & g & u & E & F & U & G & D & P); [lia|].
      rewrite loopn_S, E. cbn [bind]. unfold ortho. cbn [fst snd].
      assert (Vc : st' (ks + c)%nat = Some (v c)) by (rewrite F by lia; apply V; lia).
      unfold e_inner. rewrite !within_ok by lia. rewrite U, Vc. cbn [bind]. rewrite mput_eq. cbn [dopp option_map].
      unfold e_add. rewrite !within_ok by lia. rewrite U, Vc. cbn [bind].
      set (a := ip e u (v c)).
      exists (put st' (ks + k + 1) (Some (lin 1 u (- a) (v c)))), (mput h' c k (Some a)),
        (fun i => if i =? c then a else g i), (lin 1 u (- a) (v c)).
      split; [reflexivity|]. split; [intros i Hi; rewrite put_neq by auto; auto|]. split; [apply put_eq|]. split; [|split].
      + intros i j. destruct (Nat.eqb_spec i c) as [->|Ei].
        * destruct (Nat.eqb_spec j k) as [->|Ej].
          -- rewrite mput_eq. cbn [andb]. destruct (Nat.ltb_spec c (S c)); [reflexivity|lia].
          -- rewrite mput_neq by auto. rewrite G. apply Nat.eqb_neq in Ej. now rewrite Ej.
        * rewrite mput_neq by auto. rewrite G. destruct (j =? k); cbn [andb]; [|reflexivity].
          destruct (Nat.ltb_spec i c), (Nat.ltb_spec i (S c)); auto; lia.
      + rewrite D, comb_S, Nat.eqb_refl.
        rewrite (comb_same n c (fun i => if i =? c then a else g i) v g v);
          [|intros j Hj; destruct (Nat.eqb_spec j c); [lia|reflexivity]|reflexivity].
        intros i Hi. unfold lin. lra.
      + intros i Hi. rewrite (ip_linear n e OK). destruct (Nat.eq_dec i c) as [->|Ei].
        * fold a. rewrite (O c c) by lia. rewrite Nat.eqb_refl. lra.
        * rewrite P by lia. rewrite (O c i) by lia. destruct (Nat.eqb_spec c i); [lia|]. lra.
  Qed.

  (** One pass with a finite vector. *)
  Lemma arnoldi_finite k (st : store) (h : dmat) v :
    (ks + k + 1 < n_vecs e)%nat ->
    (forall j, (j <= k)%nat -> st (ks + j)%nat = Some (v j)) ->
    orthonormal e (S k) v ->
    exists (st' : store) (h' : dmat) g s,
      arnoldi e k (st, h) = Ok (st', h')
      /\ (forall i, i <> (ks + k + 1)%nat -> st' i = st i)
      /\ (forall i j, h' i j = if j =? k then if i <=? k then Some (g i) else if i =? S k then Some s else h i j else h i j)
      /\ ((s <> 0 /\ exists v', st' (ks + k + 1)%nat = Some v'
            /\ same n (op e (v k)) (lin s v' 1 (comb (S k) g v))
            /\ ip e v' v' = 1 /\ (forall i, (i <= k)%nat -> ip e v' (v i) = 0))
          \/ (s = 0 /\ st' (ks + k + 1)%nat = None /\ same n (op e (v k)) (comb (S k) g v))).
  Proof.
    intros N V O. unfold arnoldi. cbn [fst snd]. unfold e_matvec. rewrite !within_ok by lia. cbn [bind].
    rewrite (V k) by lia. cbn [option_map].
    set (st1 := put st (ks + k + 1) (Some (op e (v k)))).
    destruct (ortho_loop k st1 h v (op e (v k))) with (c := (k + 1)%nat) as (st' & h' & g & u & E & F & U & G & D & P); auto.
    { intros j Hj. unfold st1. rewrite put_neq by lia. now apply V. }
    { unfold st1. apply put_eq. }
    rewrite E. cbn [bind fst snd]. unfold e_norm, e_inner. rewrite !within_ok by lia. rewrite U. cbn [bind].
    rewrite mput_eq. unfold dsqrt. pose proof (ip_positive n e OK u) as Pu. destruct (Rlt_dec (ip e u u) 0) as [L|_]; [lra|].
    set (s := sqrt (ip e u u)).
    unfold e_scale. rewrite !within_ok by lia. rewrite U. cbn [bind].
    eexists _, _, g, s. split; [reflexivity|]. split; [intros i Hi; rewrite put_neq by auto; rewrite F by auto; unfold st1; now rewrite put_neq|].
    split.
    { intros i j. destruct (Nat.eqb_spec j k) as [->|Ej].
      - destruct (Nat.eqb_spec i (S k)) as [->|Ei].
        + replace (k + 1)%nat with (S k) by lia. rewrite mput_eq. destruct (Nat.leb_spec (S k) k); [lia|reflexivity].
        + rewrite mput_neq by lia. rewrite G, Nat.eqb_refl. cbn [andb].
          destruct (Nat.ltb_spec i (k + 1)), (Nat.leb_spec i k); auto; lia.
      - rewrite mput_neq by auto. rewrite G. apply Nat.eqb_neq in Ej. now rewrite Ej. }
    rewrite put_eq. cbn [ddiv]. replace (S k) with (k + 1)%nat by lia. destruct (Req_EM_T s 0) as [Z|Z].
    - right. split; auto. split; auto. rewrite D.
      assert (Eu : same n u zero) by (apply (ip_definite n e OK); apply sqrt_eq_0; auto).
      rewrite Eu. intros i Hi. unfold lin, zero. lra.
    - left. split; auto. eexists. split; [reflexivity|].
      assert (Su : ip e u u = s * s) by (symmetry; now apply sqrt_sqrt).
      split; [|split].
      + rewrite D. intros i Hi. unfold lin, scl. field. auto.
      + rewrite ip_scl_l, (ip_symmetric n e OK), ip_scl_l, Su. field. auto.
      + intros i Hi. rewrite ip_scl_l, P by lia. lra.
  Qed.

  (** One pass with a vector that is not finite. *)
  Lemma arnoldi_nan k (st : store) (h : dmat) :
    (ks + k + 1 < n_vecs e)%nat -> st (ks + k)%nat = None ->
    exists (st' : store) (h' : dmat), arnoldi e k (st, h) = Ok (st', h')
      /\ (forall i, i <> (ks + k + 1)%nat -> st' i = st i) /\ st' (ks + k + 1)%nat = None
      /\ (forall i j, (j <> k)%nat -> h' i j = h i j) /\ h' 0%nat k = None.
  Proof.
    intros N V. unfold arnoldi. cbn [fst snd]. unfold e_matvec. rewrite !within_ok by lia. cbn [bind].
    rewrite V. cbn [option_map]. set (st1 := put st (ks + k + 1) None).
    assert (L : forall c, (c <= k + 1)%nat -> exists (st' : store) (h' : dmat), loopn (ortho e k) c (st1, h) = Ok (st', h')
      /\ (forall i, i <> (ks + k + 1)%nat -> st' i = st i) /\ st' (ks + k + 1)%nat = None
      /\ (forall i j, (j <> k)%nat -> h' i j = h i j) /\ ((0 < c)%nat -> h' 0%nat k = None)).
    { induction c as [|c IH]; intros C.
      - exists st1, h. cbn [loopn]. repeat split; auto.
        + intros i Hi. unfold st1. now rewrite put_neq.
        + unfold st1. apply put_eq.
        + lia.
      - destruct IH as (st' & h' & E & F & U & G & Z); [lia|].
        rewrite loopn_S, E. cbn [bind]. unfold ortho. cbn [fst snd].
        unfold e_inner. rewrite !within_ok by lia. rewrite U. cbn [bind]. rewrite mput_eq. cbn [dopp option_map].
        unfold e_add. rewrite !within_ok by lia. rewrite U. cbn [bind].
        eexists _, _. split; [reflexivity|]. split; [intros i Hi; rewrite put_neq by auto; auto|].
        split; [apply put_eq|]. split.
        + intros i j Hj. rewrite mput_neq by auto. auto.
        + intros _. destruct (Nat.eq_dec c 0) as [->|Ec]; [apply mput_eq|]. rewrite mput_neq by auto. apply Z. lia. }
    destruct (L (k + 1)%nat) as (st' & h' & E & F & U & G & Z); [lia|].
    rewrite E. cbn [bind fst snd]. unfold e_norm, e_inner. rewrite !within_ok by lia. rewrite U. cbn [bind dsqrt].
    rewrite mput_eq. unfold e_scale. rewrite !within_ok by lia. cbn [bind ddiv].
    eexists _, _. split; [reflexivity|]. split; [intros i Hi; rewrite put_neq by auto; auto|].
    split; [apply put_eq|]. split.
    - intros i j Hj. rewrite mput_neq by auto. auto.
    - rewrite mput_neq by lia. apply Z. lia.
  Qed.

  (** *** The loop *)

  (** What is known of the vectors [v 0 .. v k] and of the matrix after [k] passes. *)
  Record relations (r : vec) (beta : R) (k : nat) (v : nat -> vec) (H : nat -> nat -> R) (st : store) (h : dmat) : Prop := {
    rel_st : forall j, (j < k)%nat -> st (ks + j)%nat = Some (v j);
    rel_h : forall i j, h i j = Some (H i j);
    rel_hess : forall i j, (S j < i)%nat -> H i j = 0;
    rel_new : forall i j, (k <= j)%nat -> H i j = 0;
    rel_on : orthonormal e k v;
    rel_op : forall j, (j < k)%nat -> same n (op e (v j)) (comb (S (S j)) (fun i => H i j) v);
    rel_sub : forall j, (S j < k)%nat -> H (S j) j <> 0;
    rel_r : (0 < k)%nat -> beta <> 0 /\ same n r (scl beta (v 0%nat))
  }.

  Definition arnoldi_inv (r : vec) (beta : R) (k : nat) (st : store) (h : dmat) : Prop :=
    (exists v H, relations r beta k v H st h /\ st (ks + k)%nat = Some (v k) /\ orthonormal e (S k) v
       /\ (forall j, (j < k)%nat -> H (S j) j <> 0) /\ beta <> 0 /\ same n r (scl beta (v 0%nat)))
    \/ (exists v H, relations r beta k v H st h /\ st (ks + k)%nat = None /\ v k = zero
       /\ ((0 < k)%nat -> H k (k - 1)%nat = 0) /\ ~ independent n (S k) (power e r))
    \/ (st (ks + k)%nat = None /\ exists j, (j < k)%nat /\ h 0%nat j = None /\ ~ independent n (S j) (power e r)).

  Lemma power_spans r beta k v H st h :
    relations r beta k v H st h -> forall j, (j < k)%nat -> spans n (S j) v (power e r j).
  Proof.
    intros Rel. induction j as [|j IH]; intros Hj.
    - destruct (rel_r _ _ _ _ _ _ _ Rel) as (_ & Er); [lia|]. exists (fun _ => beta). cbn [power]. rewrite Er.
      intros i Hi. unfold comb, scl. cbn. lra.
    - destruct IH as (c & Hc); [lia|]. cbn [power]. eapply spans_same; [symmetry; rewrite Hc; apply (op_comb n e OK)|].
      apply spans_comb. intros i Hi. eapply spans_same; [symmetry; apply (rel_op _ _ _ _ _ _ _ Rel); lia|].
      eapply spans_mono; [|eexists; reflexivity]. lia.
  Qed.

  Lemma basis_spans r beta k v H st h :
    relations r beta k v H st h -> forall j, (j < k)%nat -> spans n (S j) (power e r) (v j).
  Proof.
    intros Rel j. induction j as [j IHs] using lt_wf_ind. intros Hj. destruct j as [|j].
    - destruct (rel_r _ _ _ _ _ _ _ Rel) as (B & Er); [lia|]. exists (fun _ => / beta).
      intros i Hi. unfold comb. cbn. rewrite (Er i Hi). unfold scl. field. auto.
    - pose proof (rel_op _ _ _ _ _ _ _ Rel j ltac:(lia)) as Eo. rewrite comb_S in Eo.
      pose proof (rel_sub _ _ _ _ _ _ _ Rel j Hj) as Z.
      apply (spans_same n _ _ (lin (/ H (S j) j) (op e (v j)) (- / H (S j) j) (comb (S j) (fun i => H i j) v))).
      { rewrite Eo. intros i Hi. unfold lin. field. auto. }
      apply spans_lin.
      + destruct (IHs j) as (c & Hc); [lia|lia|]. eapply spans_same; [symmetry; rewrite Hc; apply (op_comb n e OK)|].
        apply spans_comb. intros i Hi. apply (spans_unit n (S (S j)) (power e r) (S i)). lia.
      + apply spans_comb. intros i Hi. eapply spans_mono; [|apply IHs; lia]. lia.
  Qed.

  Lemma not_independent r k : spans n k (power e r) (power e r k) -> ~ independent n (S k) (power e r).
  Proof.
    intros (c & Hc) I. specialize (I (fun j => if j =? k then 1 else - c j)). cbn beta in I.
    refine (_ (I _ k _)); [rewrite Nat.eqb_refl; lra| |lia].
    rewrite comb_S, Nat.eqb_refl. intros i Hi. unfold lin. rewrite (Hc i Hi). unfold comb, zero.
    rewrite Rmult_1_l, <- rsum_scal, <- rsum_plus, (rsum_ext _ _ (fun _ => 0)), rsum_0; auto.
    intros j Hj. destruct (Nat.eqb_spec j k); [lia|]. lra.
  Qed.

  Lemma arnoldi_loop r beta (st0 : store) m :
    (ks + m < n_vecs e)%nat ->
    (beta = 0 -> st0 ks = None /\ same n r zero) ->
    (beta <> 0 -> exists v, st0 ks = Some v /\ ip e v v = 1 /\ same n r (scl beta v)) ->
    forall k, (k <= m)%nat -> exists (st : store) (h : dmat),
      loopn (arnoldi e) k (st0, fun _ _ => Some 0) = Ok (st, h)
      /\ (forall i, (i < ks)%nat -> st i = st0 i) /\ arnoldi_inv r beta k st h.
  Proof.
    intros N B0 B1. induction k as [|k IH]; intros Hk.
    - exists st0, (fun _ _ => Some 0). cbn [loopn]. split; [reflexivity|]. split; [auto|]. destruct (Req_EM_T beta 0) as [Z|Z].
      + right. left. exists (fun _ => zero), (fun _ _ => 0). destruct (B0 Z) as (S0 & Er). repeat split; auto; try lia.
        * intros i j Hi. lia.
        * intros In. assert (1 = 0); [|lra]. apply (In (fun _ => 1)) with (j := 0%nat); [|lia].
          intros i Hi. unfold comb. cbn. rewrite (Er i Hi). unfold zero. lra.
      + left. destruct (B1 Z) as (v & Sv & Nv & Er). exists (fun _ => v), (fun _ _ => 0).
        replace (ks + 0)%nat with ks by lia. repeat split; auto; try lia.
        * intros i j Hi. lia.
        * intros i j Hi Hj. replace i with 0%nat by lia. replace j with 0%nat by lia. exact Nv.
    - destruct IH as (st & h & E & F & I); [lia|]. rewrite loopn_S, E. cbn [bind].
      destruct I as [(v & H & Rel & Vk & O & Hn & Bn & Er)|[(v & H & Rel & Vk & Zk & Hz & NI)|(Vk & j & Hj & Hn & NI)]].
      + destruct (arnoldi_finite k st h v) as (st' & h' & g & s & Ea & Fa & Ha & Cases); auto; [lia| |].
        { intros j Hj. destruct (Nat.eq_dec j k) as [->|Ej]; auto. apply (rel_st _ _ _ _ _ _ _ Rel). lia. }
        exists st', h'. split; [exact Ea|]. split; [intros i Hi; rewrite Fa by lia; auto|].
        set (H' := fun i j => if j =? k then if i <=? k then g i else if i =? S k then s else 0 else H i j).
        assert (Eh : forall i j, h' i j = Some (H' i j)).
        { intros i j. rewrite Ha. unfold H'. rewrite (rel_h _ _ _ _ _ _ _ Rel). destruct (Nat.eqb_spec j k) as [->|Ej]; auto.
          destruct (i <=? k); auto. destruct (i =? S k); auto. now rewrite (rel_new _ _ _ _ _ _ _ Rel). }
        assert (Hs : H' (S k) k = s).
        { unfold H'. rewrite Nat.eqb_refl. destruct (Nat.leb_spec (S k) k); [lia|]. now rewrite Nat.eqb_refl. }
        set (v2 := fun x j => if j =? S k then x else v j).
        assert (V2 : forall x j, (j <= k)%nat -> v2 x j = v j).
        { intros x j Hj. unfold v2. destruct (Nat.eqb_spec j (S k)); [lia|reflexivity]. }
        assert (V2' : forall x, v2 x (S k) = x) by (intros x; unfold v2; now rewrite Nat.eqb_refl).
        assert (C2 : forall x c j, (j <= S k)%nat -> comb j c (v2 x) = comb j c v).
        { intros x c j Hj. apply functional_extensionality. intros i. unfold comb. apply rsum_ext. intros i' Hi'. now rewrite V2 by lia. }
        assert (Gk : comb (S k) (fun i => H' i k) v = comb (S k) g v).
        { apply functional_extensionality. intros i. unfold comb. apply rsum_ext. intros i' Hi'. unfold H'. rewrite Nat.eqb_refl.
          destruct (Nat.leb_spec i' k); [reflexivity|lia]. }
        assert (Rl : forall x, same n (op e (v k)) (lin s x 1 (comb (S k) g v)) -> relations r beta (S k) (v2 x) H' st' h').
        { intros x Ex. constructor; [|exact Eh|..].
          - intros j Hj. rewrite Fa by lia. rewrite V2 by lia. destruct (Nat.eq_dec j k) as [->|Ej]; auto.
            apply (rel_st _ _ _ _ _ _ _ Rel). lia.
          - intros i j Hi. unfold H'. destruct (Nat.eqb_spec j k) as [->|Ej]; [|apply (rel_hess _ _ _ _ _ _ _ Rel); lia].
            destruct (Nat.leb_spec i k); [lia|]. destruct (Nat.eqb_spec i (S k)); [lia|reflexivity].
          - intros i j Hj. unfold H'. destruct (Nat.eqb_spec j k); [lia|]. apply (rel_new _ _ _ _ _ _ _ Rel). lia.
          - intros i j Hi Hj. rewrite 2 V2 by lia. apply O; lia.
          - intros j Hj. rewrite V2 by lia. destruct (Nat.eq_dec j k) as [->|Ej].
            + rewrite comb_S, Hs, C2, V2', Gk, Ex by lia. intros i Hi. unfold lin. lra.
            + rewrite C2 by lia. rewrite (rel_op _ _ _ _ _ _ _ Rel j) by lia. apply comb_same; [|reflexivity].
              intros i Hi. unfold H'. apply Nat.eqb_neq in Ej. now rewrite Ej.
          - intros j Hj. unfold H'. destruct (Nat.eqb_spec j k); [lia|]. apply Hn. lia.
          - intros _. rewrite V2 by lia. auto. }
        unfold arnoldi_inv; replace (ks + S k)%nat with (ks + k + 1)%nat by lia.
        destruct Cases as [(Zs & v' & Sv & Ev & Nv & Pv)|(Zs & Sv & Ev)].
        * left. exists (v2 v'), H'. split; [now apply Rl|]. rewrite V2'. split; [auto|]. split; [|split; [|split; auto]].
          -- intros i j Hi Hj. destruct (Nat.eq_dec i (S k)) as [->|Ei], (Nat.eq_dec j (S k)) as [->|Ej].
             ++ rewrite V2', Nat.eqb_refl. auto.
             ++ rewrite V2', V2 by lia. destruct (Nat.eqb_spec (S k) j); [lia|]. apply Pv. lia.
             ++ rewrite V2', V2 by lia. destruct (Nat.eqb_spec i (S k)); [lia|]. rewrite (ip_symmetric n e OK). apply Pv. lia.
             ++ rewrite 2 V2 by lia. apply O; lia.
          -- intros j Hj. destruct (Nat.eq_dec j k) as [->|Ej]; [now rewrite Hs|]. unfold H'. apply Nat.eqb_neq in Ej. rewrite Ej.
             apply Hn. apply Nat.eqb_neq in Ej. lia.
        * right. left. exists (v2 zero), H'.
          assert (Rl0 : relations r beta (S k) (v2 zero) H' st' h').
          { apply Rl. rewrite Ev, Zs. intros i Hi. unfold lin, zero. lra. }
          split; [auto|]. rewrite V2'. split; [auto|]. split; [reflexivity|]. split.
          { intros _. replace (S k - 1)%nat with k by lia. now rewrite Hs. }
          apply not_independent. apply (spans_trans n (S k) (power e r) (S k) (v2 zero)).
          -- destruct (power_spans _ _ _ _ _ _ _ Rl0 k ltac:(lia)) as (c & Hc). cbn [power].
             eapply spans_same; [symmetry; rewrite Hc; apply (op_comb n e OK)|]. apply spans_comb. intros i Hi.
             destruct (Nat.eq_dec i k) as [->|Ei].
             ++ rewrite V2 by lia. eapply spans_same; [symmetry; exact Ev|]. rewrite <- (C2 zero) by lia. eexists. reflexivity.
             ++ eapply spans_same; [symmetry; apply (rel_op _ _ _ _ _ _ _ Rl0); lia|]. eapply spans_mono; [|eexists; reflexivity]. lia.
          -- intros j Hj. eapply spans_mono; [|apply (basis_spans _ _ _ _ _ _ _ Rl0); lia]. lia.
      + destruct (arnoldi_nan k st h) as (st' & h' & Ea & Fa & Va & _ & Ha); auto; [lia|].
        exists st', h'. split; [exact Ea|]. split; [intros i Hi; rewrite Fa by lia; auto|]. right. right.
        unfold arnoldi_inv; replace (ks + S k)%nat with (ks + k + 1)%nat by lia. split; auto. exists k. auto.
      + destruct (arnoldi_nan k st h) as (st' & h' & Ea & Fa & Va & Ga & Ha); auto; [lia|].
        exists st', h'. split; [exact Ea|]. split; [intros i Hi; rewrite Fa by lia; auto|]. right. right.
        unfold arnoldi_inv; replace (ks + S k)%nat with (ks + k + 1)%nat by lia. split; auto. exists j. split; [lia|]. rewrite Ga by lia. auto.
  Qed.
End Equation.

(** ** Storage *)

Section Storage.
  Variable e : lineq.
  Notation ks := krylov_start.

  Lemma loopn_total {A} (g : nat -> A -> outcome A) m s :
    (forall i t, (i < m)%nat -> exists t', g i t = Ok t') -> exists t, loopn g m s = Ok t.
  Proof.
    intros H. induction m as [|m IH]; [exists s; reflexivity|]. destruct IH as (t & E); [intros; apply H; lia|].
    rewrite loopn_S, E. cbn [bind]. apply H. lia.
  Qed.

  Lemma arnoldi_total k s : (ks + k + 1 < n_vecs e)%nat -> exists t, arnoldi e k s = Ok t.
  Proof.
    intros N. unfold arnoldi, e_matvec. rewrite !within_ok by lia. cbn [bind].
    match goal with |- context [loopn ?g ?m ?s] => destruct (loopn_total g m s) as (t & E) end.
    - intros i t Hi. unfold ortho, e_inner, e_add. rewrite !within_ok by lia. cbn [bind]. rewrite !within_ok by lia.
      cbn [bind]. eexists. reflexivity.
    - rewrite E. cbn [bind]. unfold e_norm, e_inner. rewrite !within_ok by lia. cbn [bind]. unfold e_scale.
      rewrite !within_ok by lia. cbn [bind]. eexists. reflexivity.
  Qed.

  Lemma cycle_total lsq m st : (m + 4 <= n_vecs e)%nat -> exists st', gmres_cycle lsq e m st = Ok st'.
  Proof.
    intros N. assert (K3 : ks = 3%nat) by reflexivity.
    unfold gmres_cycle. unfold e_matvec. rewrite !within_ok by lia. cbn [bind].
    unfold e_add at 1. rewrite !within_ok by lia. cbn [bind].
    unfold e_norm, e_inner. rewrite !within_ok by lia. cbn [bind].
    unfold e_scale. rewrite !within_ok by lia. cbn [bind].
    match goal with |- context [loopn (arnoldi e) m ?s] => destruct (loopn_total (arnoldi e) m s) as (t & E) end.
    - intros i t Hi. apply arnoldi_total. lia.
    - rewrite E. cbn [bind]. apply loopn_total. intros i t' Hi. unfold e_add. rewrite !within_ok by lia. eexists. reflexivity.
  Qed.

  Lemma cycle_ub lsq m st : n_vecs e = (S m + 3)%nat -> gmres_cycle lsq e (S m) st = Ub.
  Proof.
    intros N. assert (K3 : ks = 3%nat) by reflexivity.
    unfold gmres_cycle. unfold e_matvec at 1. rewrite !within_ok by lia. cbn [bind].
    unfold e_add at 1. rewrite !within_ok by lia. cbn [bind].
    unfold e_norm at 1, e_inner at 1. rewrite !within_ok by lia. cbn [bind].
    unfold e_scale at 1. rewrite !within_ok by lia. cbn [bind]. rewrite loopn_S.
    match goal with |- context [loopn (arnoldi e) m ?s] => destruct (loopn_total (arnoldi e) m s) as (t & E) end.
    - intros i t Hi. apply arnoldi_total. lia.
    - rewrite E. cbn [bind].
      assert (U : arnoldi e m t = Ub); [|now rewrite U].
      unfold arnoldi, e_matvec, within. rewrite K3, N. destruct (Nat.ltb_spec (3 + m + 1) (S m + 3)); [lia|reflexivity].
  Qed.
End Storage.
