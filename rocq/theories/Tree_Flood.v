(** Proofs about neighbours of leaves, flood fill, node count and the tree table of the mesh file. *)
From Coq Require Import ZArith QArith List Bool Arith Lia ZifyBool ZifyNat.
From Verif Require Import Outcome Tree_Model Tree_Spec Tree_Proofs Tree_Neighbors.
Import ListNotations.
Local Open Scope nat_scope.

Definition good (n : nat) (t : tree) : Prop := wf n t /\ t_level t = 0 /\ nonneg n t.

Lemma reachable_good n t : reachable n t -> good n t.
Proof.
  intros R. destruct (reachable_wf n t R) as (W & L & C). split; [exact W|]. split; [exact L|].
  intros i Hi. unfold coord. rewrite C, nth_repeat_0. lia.
Qed.

Lemma firstn_exact {A} n (l : list A) : length l = n -> firstn n l = l.
Proof. intros <-. apply firstn_all. Qed.

Lemma pts_length n dir x : length (pts n dir x) = n.
Proof. unfold pts. now rewrite map_length, seq_length. Qed.
Lemma bss_length n dir : length (bss n dir) = n.
Proof. unfold bss. now rewrite map_length, seq_length. Qed.

Lemma find_neighbor_search n t p x dir : subtree t p = Some x -> n <= length dir ->
  find_neighbor n t p dir = Ok (search (B n dir x) t).
Proof.
  intros Hx Hd. unfold find_neighbor. destruct (Nat.ltb_spec (length dir) n); [lia|]. rewrite Hx. cbn [of_option_ub bind].
  change (map (fun i_dim => (coord x i_dim + (if (0 <? nth i_dim dir 0)%Z then 1 else 0))%Z) (seq 0 n)) with (pts n dir x).
  change (map (fun i_dim => if (nth i_dim dir 0 <? 0)%Z then 1%Z else 0%Z) (seq 0 n)) with (bss n dir).
  unfold find_leaf. rewrite pts_length, bss_length, Nat.ltb_irrefl.
  rewrite !firstn_exact by (apply pts_length || apply bss_length). now rewrite find_leaf_int_search.
Qed.

Lemma find_neighbor_F n t p x dir : good n t -> subtree t p = Some x -> n <= length dir ->
  find_neighbor n t p dir = Ok (hd_error (F n dir x t)).
Proof.
  intros (W & L & N) Hx Hd. rewrite (find_neighbor_search n t p x dir Hx Hd). f_equal.
  destruct (search (B n dir x) t) as [q|] eqn:E.
  - symmetry. now apply F_hd.
  - apply search_none in E. rewrite F_none; [reflexivity|exact W|]. rewrite T_B; [exact E|lia].
Qed.

Lemma ascend_firstn n t k L q : good n t -> length q <= k -> (exists y, subtree t q = Some y) ->
  ascend k t L q = Ok (firstn L q).
Proof.
  intros (W & L0 & _). revert q. induction k as [|k IH]; intros q Hk [y Hy]; cbn [ascend]; rewrite Hy; cbn [of_option_ub bind];
    destruct (wf_subtree n t q y W Hy) as [_ Ly]; rewrite Ly, L0; cbn [Nat.add];
    destruct (Nat.ltb_spec L (length q)); try lia; try (rewrite firstn_all2 by lia; reflexivity).
  destruct q as [|i q]; [cbn in *; lia|].
  assert (E : removelast (i :: q) = firstn (length q) (i :: q)) by apply removelast_firstn_len.
  rewrite IH.
  - rewrite E, firstn_firstn, Nat.min_l; [reflexivity|]. cbn in *. lia.
  - rewrite E, firstn_length. cbn in *. lia.
  - rewrite <- (firstn_skipn (length q) (i :: q)), subtree_app in Hy. rewrite E.
    destruct (subtree t (firstn (length q) (i :: q))); [eauto|discriminate].
Qed.

Lemma find_neighbors_F n t p x dir : good n t -> subtree t p = Some x -> n <= length dir ->
  find_neighbors n t p dir = Ok (F n dir x t).
Proof.
  intros G Hx Hd. pose proof G as (W & L & N). unfold find_neighbors. rewrite (find_neighbor_search n t p x dir Hx Hd). cbn [bind].
  destruct (search (B n dir x) t) as [q|] eqn:E.
  - rewrite Hx. cbn [of_option_ub bind].
    destruct (search_some _ n t q (B_covers n dir x) W E) as (y0 & [Hy0 _] & _).
    rewrite (ascend_firstn n t _ _ q G (le_n _)) by eauto. cbn [bind].
    destruct (main_F n dir x t q W N ltac:(lia) E) as (y & Hy & HF).
    rewrite L, Nat.sub_0_r in Hy, HF. rewrite Hy. cbn [of_option_ub bind]. f_equal. exact HF.
  - apply search_none in E. rewrite F_none; [reflexivity|exact W|]. rewrite T_B; [exact E|lia].
Qed.

Lemma find_neighbor_throws n t p dir : length dir < n -> find_neighbor n t p dir = Throw.
Proof. intros H. unfold find_neighbor. now destruct (Nat.ltb_spec (length dir) n); [|lia]. Qed.

Lemma F_in n dir x t q : In q (F n dir x t) <-> exists y, leaf_at t q y /\ touches n dir x y.
Proof.
  unfold F. rewrite in_map_iff. split.
  - intros ([q' y] & E & H). cbn in E. subst q'. apply filter_In in H as [H1 H2]. exists y.
    split; [now apply leaves_in|]. now apply touchb_spec.
  - intros (y & H1 & H2). exists (q, y). split; [reflexivity|]. apply filter_In. split; [now apply leaves_in|]. now apply touchb_spec.
Qed.

Lemma F_nodup n dir x t : NoDup (F n dir x t).
Proof.
  unfold F. pose proof (leaves_nodup t) as H. induction (leaves t) as [|[p y] l IH]; cbn [filter map snd]; [constructor|].
  cbn in H. inversion H as [|? ? Hni Hnd]; subst. destruct (T n dir x y); cbn [map fst]; [|auto]. constructor; [|auto].
  intros Hin. apply Hni. apply in_map_iff in Hin as (z & E & Hz). apply filter_In in Hz as [Hz _].
  apply in_map_iff. eauto.
Qed.

Lemma find_neighbors_correct n t p x dir :
  reachable n t -> subtree t p = Some x -> n <= length dir ->
  exists l, find_neighbors n t p dir = Ok l /\ find_neighbor n t p dir = Ok (hd_error l) /\ NoDup l /\
            forall q, In q l <-> exists y, leaf_at t q y /\ touches n dir x y.
Proof.
  intros R Hx Hd. apply reachable_good in R. exists (F n dir x t).
  split; [now apply find_neighbors_F|]. split; [now apply find_neighbor_F|]. split; [apply F_nodup|]. apply F_in.
Qed.

(** ** disjointness of leaves *)
Lemma box_inside n t p x i : wf n t -> subtree t p = Some x -> i < n ->
  (coord t i * 2 ^ Z.of_nat (t_level x) <= coord x i * 2 ^ Z.of_nat (t_level t) /\
   (coord x i + 1) * 2 ^ Z.of_nat (t_level t) <= (coord t i + 1) * 2 ^ Z.of_nat (t_level x))%Z.
Proof.
  intros W H Hi. revert t W H. induction p as [|k p IH]; intros t W H; cbn [subtree] in H.
  - inversion H; subst. lia.
  - destruct (nth_error (t_children t) k) as [ch|] eqn:E; [|discriminate].
    specialize (IH ch (wf_child n t k ch W E) H). destruct (child_coord n t k ch i W E Hi) as (E1 & E2 & _).
    rewrite E1, E2, pow2_S in IH. pose proof (pow2_pos (t_level x)). destruct (bit n k i); cbn [Z.b2z] in IH; nia.
Qed.

Lemma leaves_disjoint n t p x q y : wf n t -> leaf_at t p x -> leaf_at t q y ->
  (forall i, i < n -> (lo y i < hi x i)%Q /\ (lo x i < hi y i)%Q) -> p = q.
Proof.
  intros W. revert t q W. induction p as [|k p IH]; intros t q W [Hx Lx] [Hy Ly] O; cbn [subtree] in Hx.
  - inversion Hx; subst. destruct q as [|j q]; [reflexivity|]. cbn [subtree] in Hy. rewrite Lx in Hy. now destruct j.
  - destruct (nth_error (t_children t) k) as [ch|] eqn:E; [|discriminate].
    destruct q as [|j q]; cbn [subtree] in Hy.
    + inversion Hy; subst. rewrite Ly in E. now destruct k.
    + destruct (nth_error (t_children t) j) as [ch'|] eqn:E'; [|discriminate].
      destruct (child_level n t k ch W E) as [Lc Lk]. destruct (child_level n t j ch' W E') as [Lc' Lk'].
      assert (k = j) as <-.
      { apply (bit_inj n); [assumption..|]. intros i Hi.
        destruct (O i Hi) as [O1 O2]. unfold lo, hi in O1, O2. rewrite frac_lt in O1, O2.
        pose proof (box_inside n ch p x i (wf_child n t k ch W E) Hx Hi) as B1.
        pose proof (box_inside n ch' q y i (wf_child n t j ch' W E') Hy Hi) as B2.
        destruct (child_coord n t k ch i W E Hi) as (E1 & _). destruct (child_coord n t j ch' i W E' Hi) as (E1' & _).
        rewrite E1, Lc in B1. rewrite E1', Lc' in B2.
        set (Px := (2 ^ Z.of_nat (t_level x))%Z) in *. set (Py := (2 ^ Z.of_nat (t_level y))%Z) in *.
        assert (Hpx : (0 < Px)%Z) by apply pow2_pos. assert (Hpy : (0 < Py)%Z) by apply pow2_pos.
        pose proof (pow2_pos (S (t_level t))) as Ps. set (S0 := (2 ^ Z.of_nat (S (t_level t)))%Z) in *. clearbody Px Py S0.
        destruct (bit n k i), (bit n j i); try reflexivity; exfalso; cbn [Z.b2z] in *.
        - (* x above, y below *)
          assert ((coord y i + 1) * S0 * Px <= (2 * coord t i + 0 + 1) * Py * Px)%Z by nia.
          assert ((2 * coord t i + 1) * Px * Py <= coord x i * S0 * Py)%Z by nia.
          assert (coord x i * Py * S0 < (coord y i + 1) * Px * S0)%Z by nia. lia.
        - assert ((coord x i + 1) * S0 * Py <= (2 * coord t i + 0 + 1) * Px * Py)%Z by nia.
          assert ((2 * coord t i + 1) * Py * Px <= coord y i * S0 * Px)%Z by nia.
          assert (coord y i * Px * S0 < (coord x i + 1) * Py * S0)%Z by nia. lia. }
      f_equal. rewrite E in E'. inversion E'; subst.
      apply (IH ch' q (wf_child n t k ch' W E)); [split|split|]; assumption.
Qed.

Lemma lo_hi x i : (lo x i < hi x i)%Q.
Proof. unfold lo, hi. rewrite frac_lt. pose proof (pow2_pos (t_level x)). nia. Qed.

Lemma nth_direct n d sign i : i < n -> nth i (direct n d sign) 0%Z = if i =? d then sign else 0%Z.
Proof. intros Hi. unfold direct. now rewrite (nth_map_seq n (fun j => if j =? d then sign else 0%Z)). Qed.

Lemma touches_face n t p x q y d sign : wf n t -> leaf_at t p x -> leaf_at t q y -> d < n -> sign = 1%Z \/ sign = (-1)%Z ->
  (touches n (direct n d sign) x y <-> share_face n d sign x y).
Proof.
  intros W Lx Ly Hd Hs. unfold touches, share_face. split.
  - intros H.
    assert (O : forall i, i < n -> i <> d -> (lo y i < hi x i)%Q /\ (lo x i < hi y i)%Q).
    { intros i Hi Hne. apply (H i Hi). rewrite nth_direct by exact Hi. now destruct (Nat.eqb_spec i d). }
    split; [|exact O]. destruct (H d Hd) as (_ & H1 & H2). rewrite nth_direct, Nat.eqb_refl in H1, H2 by exact Hd.
    destruct Hs as [-> | ->].
    + cbn [Z.ltb Z.compare]. destruct (H1 ltac:(lia)) as [K1 K2]. apply Qle_lteq in K1 as [K1|K1]; [exfalso|exact K1].
      assert (p = q) as <-.
      { apply (leaves_disjoint n t p x q y W Lx Ly). intros i Hi. destruct (Nat.eq_dec i d) as [->|Hne]; [|auto].
        split; [exact K1|]. eapply Qlt_trans; [apply lo_hi|exact K2]. }
      destruct Lx as [Lx _], Ly as [Ly _]. rewrite Lx in Ly. inversion Ly; subst. now apply Qlt_irrefl in K2.
    + cbn [Z.ltb Z.compare]. destruct (H2 ltac:(lia)) as [K1 K2]. apply Qle_lteq in K2 as [K2|K2]; [exfalso|now symmetry].
      assert (p = q) as <-.
      { apply (leaves_disjoint n t p x q y W Lx Ly). intros i Hi. destruct (Nat.eq_dec i d) as [->|Hne]; [|auto].
        split; [|exact K2]. eapply Qlt_trans; [exact K1|apply lo_hi]. }
      destruct Lx as [Lx _], Ly as [Ly _]. rewrite Lx in Ly. inversion Ly; subst. now apply Qlt_irrefl in K1.
  - intros [H1 H2] i Hi. rewrite nth_direct by exact Hi. destruct (Nat.eqb_spec i d) as [->|Hne].
    + destruct Hs as [-> | ->]; cbn [Z.ltb Z.compare] in H1; (split; [lia|]; split; intros; [|]; try lia).
      * rewrite <- H1. split; [apply Qle_refl|apply lo_hi].
      * rewrite <- H1. split; [apply lo_hi|apply Qle_refl].
    + split; [|split; lia]. intros _. auto.
Qed.

Lemma find_neighbors_leaf n t p x d sign :
  reachable n t -> leaf_at t p x -> d < n -> sign = 1%Z \/ sign = (-1)%Z ->
  exists l, find_neighbors n t p (direct n d sign) = Ok l /\ NoDup l /\
            forall q, In q l <-> exists y, leaf_at t q y /\ share_face n d sign x y.
Proof.
  intros R Lx Hd Hs. apply reachable_good in R. pose proof R as (W & _). exists (F n (direct n d sign) x t).
  split; [apply find_neighbors_F; [exact R|apply Lx|]; unfold direct; rewrite map_length, seq_length; lia|].
  split; [apply F_nodup|]. intros q. rewrite F_in. split; intros (y & Ly & H); exists y; (split; [exact Ly|]);
    now apply (touches_face n t p x q y d sign W Lx Ly Hd Hs).
Qed.

(** ** status independence *)
Lemma forallb_ext' {A} (f g : A -> bool) l : (forall x, f x = g x) -> forallb f l = forallb g l.
Proof. intros H. induction l; cbn; congruence. Qed.

Lemma coord_forget t i : coord (forget_status t) i = coord t i.
Proof. now destruct t. Qed.
Lemma level_forget t : t_level (forget_status t) = t_level t.
Proof. now destruct t. Qed.

Lemma leaves_forget t : leaves (forget_status t) = map (fun py => (fst py, forget_status (snd py))) (leaves t).
Proof.
  induction t as [l c s e cs IH] using tree_ind'. cbn [forget_status]. rewrite !leaves_eq.
  destruct cs as [|c0 cs0]; [reflexivity|]. cbn [map]. change (forget_status c0 :: map forget_status cs0) with (map forget_status (c0 :: cs0)).
  generalize 0. induction IH as [|ch cs Hch IH IHl]; intros i; cbn [map leaves_list]; [reflexivity|].
  rewrite map_app, Hch, IHl. f_equal. rewrite !map_map. reflexivity.
Qed.

Lemma F_forget n dir x t : F n dir (forget_status x) (forget_status t) = F n dir x t.
Proof.
  unfold F. rewrite leaves_forget. induction (leaves t) as [|[p y] l IH]; cbn [map filter fst snd]; [reflexivity|].
  assert (E : T n dir (forget_status x) (forget_status y) = T n dir x y).
  { unfold T, touchb. apply forallb_ext'. intros i. now rewrite !coord_forget, !level_forget. }
  rewrite E. destruct (T n dir x y); cbn [map fst]; now rewrite IH.
Qed.

Lemma F_same n dir x t x' t' : forget_status x = forget_status x' -> forget_status t = forget_status t' ->
  F n dir x t = F n dir x' t'.
Proof. intros E1 E2. rewrite <- F_forget, E1, E2. apply F_forget. Qed.

Lemma forget_update p s t : forget_status (update p (set_status_node s) t) = forget_status t.
Proof.
  revert t. induction p as [|i p IH]; intros [l c s' e cs]; cbn [update set_status_node forget_status]; [reflexivity|].
  f_equal. revert i. induction cs as [|ch cs IHc]; intros [|i]; cbn [update_nth map]; try reflexivity; f_equal; auto.
Qed.

Lemma subtree_forget t p : subtree (forget_status t) p = option_map forget_status (subtree t p).
Proof.
  revert t. induction p as [|i p IH]; intros [l c s e cs]; cbn [subtree forget_status t_children]; [reflexivity|].
  rewrite nth_error_map. destruct (nth_error cs i) as [ch|]; cbn [option_map]; [apply IH|reflexivity].
Qed.

Lemma subtree_same t t' p x : forget_status t = forget_status t' -> subtree t p = Some x ->
  exists x', subtree t' p = Some x' /\ forget_status x = forget_status x'.
Proof.
  intros E H. pose proof (subtree_forget t p) as H1. pose proof (subtree_forget t' p) as H2. rewrite E, H2, H in H1.
  destruct (subtree t' p) as [x'|]; [|discriminate]. cbn in H1. inversion H1. eauto.
Qed.

Lemma leaf_same t t' p x : forget_status t = forget_status t' -> leaf_at t p x ->
  exists x', leaf_at t' p x' /\ forget_status x = forget_status x'.
Proof.
  intros E [H1 H2]. destruct (subtree_same t t' p x E H1) as (x' & H3 & H4). exists x'. split; [|exact H4]. split; [exact H3|].
  destruct x as [l c s e cs], x' as [l' c' s' e' cs']. cbn in *. subst cs. inversion H4. now destruct cs'.
Qed.

Lemma subtree_update_status p s t q y : subtree t q = Some y ->
  exists y', subtree (update p (set_status_node s) t) q = Some y' /\
             t_status y' = if list_eq_dec Nat.eq_dec q p then s else t_status y.
Proof.
  revert t q. induction p as [|i p IH]; intros [l c s' e cs] q H; cbn [update set_status_node].
  - destruct q as [|j q]; cbn [subtree t_children] in *.
    + eexists; split; [reflexivity|]. destruct (list_eq_dec Nat.eq_dec [] []); [reflexivity|contradiction].
    + exists y. split; [exact H|]. now destruct (list_eq_dec Nat.eq_dec (j :: q) []).
  - destruct q as [|j q]; cbn [subtree t_children] in *.
    + inversion H; subst. eexists; split; [reflexivity|]. now destruct (list_eq_dec Nat.eq_dec [] (i :: p)).
    + rewrite nth_error_update_nth. destruct (nth_error cs j) as [ch|] eqn:E; [|discriminate].
      destruct (Nat.eqb_spec i j) as [->|Hne]; cbn [option_map].
      * destruct (IH ch q H) as (y' & H1 & H2). exists y'. split; [exact H1|]. rewrite H2.
        destruct (list_eq_dec Nat.eq_dec q p) as [->|Hn]; destruct (list_eq_dec Nat.eq_dec _ _) as [X|X]; try reflexivity; congruence.
      * exists y. split; [exact H|]. destruct (list_eq_dec Nat.eq_dec (j :: q) (i :: p)) as [X|X]; [congruence|reflexivity].
Qed.

(** ** node count *)
Fixpoint nodes (t : tree) : list path :=
  match t with
  | Node _ _ _ _ cs =>
      [] :: (fix loop (i : nat) (cs : list tree) : list path :=
               match cs with [] => [] | c :: cs' => map (cons i) (nodes c) ++ loop (S i) cs' end) 0 cs
  end.
Fixpoint nodes_list (i : nat) (cs : list tree) : list path :=
  match cs with [] => [] | c :: cs' => map (cons i) (nodes c) ++ nodes_list (S i) cs' end.
Lemma nodes_eq l c s e cs : nodes (Node l c s e cs) = [] :: nodes_list 0 cs.
Proof. reflexivity. Qed.

Lemma nodes_list_in i cs p : In p (nodes_list i cs) <-> exists k q x, p = (i + k) :: q /\ nth_error cs k = Some x /\ In q (nodes x).
Proof.
  revert i. induction cs as [|c cs IH]; intros i; cbn [nodes_list].
  - split; [intros []|]. intros (k & q & x & _ & H & _). now destruct k.
  - rewrite in_app_iff, IH, in_map_iff. split.
    + intros [(q & <- & Hin)|(k & q & x & -> & H1 & H2)].
      * exists 0, q, c. rewrite Nat.add_0_r. auto.
      * exists (S k), q, x. rewrite <- plus_n_Sm. auto.
    + intros ([|k] & q & x & -> & H1 & H2).
      * left. cbn in H1. inversion H1; subst. exists q. rewrite Nat.add_0_r. auto.
      * right. exists k, q, x. rewrite <- plus_n_Sm. auto.
Qed.

Lemma nodes_in t p : In p (nodes t) <-> node_at t p.
Proof.
  revert p. induction t as [l c s e cs IH] using tree_ind'. intros p. rewrite nodes_eq. cbn [In].
  rewrite nodes_list_in. unfold node_at. rewrite Forall_forall in IH. split.
  - intros [<-|(k & q & x & -> & H1 & H2)]; [now exists (Node l c s e cs)|].
    apply IH in H2; [|eapply nth_error_In; eassumption]. destruct H2 as [y Hy]. exists y. cbn [subtree t_children Nat.add]. now rewrite H1.
  - intros [y Hy]. destruct p as [|k q]; [now left|right]. cbn [subtree t_children] in Hy.
    destruct (nth_error cs k) as [x|] eqn:E; [|discriminate]. exists k, q, x. repeat split; auto.
    apply IH; [eapply nth_error_In; eassumption|]. now exists y.
Qed.

Lemma nodes_list_nodup i cs : Forall (fun t => NoDup (nodes t)) cs -> NoDup (nodes_list i cs).
Proof.
  intros H. revert i. induction H as [|c cs Hc H IH]; intros i; cbn [nodes_list]; [constructor|].
  assert (D : forall p, In p (map (cons i) (nodes c)) -> ~ In p (nodes_list (S i) cs)).
  { intros p H1 H2. apply in_map_iff in H1 as (q & <- & _). apply nodes_list_in in H2 as (k & q' & x & E3 & _). inversion E3. lia. }
  assert (N1 : NoDup (map (cons i) (nodes c))).
  { clear -Hc. induction Hc as [|p l Hp Hc IH]; cbn; constructor; [|exact IH].
    intros H. apply in_map_iff in H as (q & E & Hq). inversion E; subst. contradiction. }
  specialize (IH (S i)). revert N1 D. generalize (map (cons i) (nodes c)) as l1.
  induction l1 as [|p l1 IH1]; intros N1 D; cbn [app]; [exact IH|]. inversion N1; subst. constructor.
  - rewrite in_app_iff. intros [X|X]; [contradiction|]. apply (D p); [now left|exact X].
  - apply IH1; [assumption|]. intros p' Hp'. apply D. now right.
Qed.

Lemma nodes_nodup t : NoDup (nodes t).
Proof.
  induction t as [l c s e cs IH] using tree_ind'. rewrite nodes_eq. constructor; [|now apply nodes_list_nodup].
  intros H. apply nodes_list_in in H as (k & q & x & E & _). discriminate.
Qed.

Fixpoint count_list (cs : list tree) : nat := match cs with [] => 0 | c :: cs' => count c + count_list cs' end.

Lemma fold_count cs a : fold_left (fun total child => total + count child) cs a = a + count_list cs.
Proof. revert a. induction cs as [|c cs IH]; intros a; cbn [fold_left count_list]; [lia|]. rewrite IH. lia. Qed.

Lemma count_eq l c s e cs : count (Node l c s e cs) = S (count_list cs).
Proof. cbn [count]. rewrite fold_count. reflexivity. Qed.

Lemma count_nodes t : count t = length (nodes t).
Proof.
  induction t as [l c s e cs IH] using tree_ind'. rewrite count_eq, nodes_eq. cbn [length]. f_equal.
  generalize 0. induction IH as [|ch cs Hch IH IHl]; intros i; cbn [count_list nodes_list]; [reflexivity|].
  rewrite app_length, map_length, Hch. f_equal. apply IHl.
Qed.

Lemma count_correct t : exists l, NoDup l /\ (forall p, In p l <-> node_at t p) /\ count t = length l.
Proof. exists (nodes t). split; [apply nodes_nodup|]. split; [apply nodes_in|apply count_nodes]. Qed.

(** ** flood fill *)
Lemma push_neighbors_F n t p x dirs queue : good n t -> subtree t p = Some x -> Forall (fun d => n <= length d) dirs ->
  push_neighbors n t p dirs queue = Ok (queue ++ flat_map (fun d => F n d x t) dirs).
Proof.
  intros G Hx HF. revert queue. induction HF as [|d dirs Hd HF IH]; intros queue; cbn [push_neighbors flat_map]; [now rewrite app_nil_r|].
  rewrite (find_neighbors_F n t p x d G Hx Hd). cbn [bind]. rewrite IH, app_assoc. reflexivity.
Qed.

Definition adj (n : nat) (t : tree) (p q : path) : Prop :=
  exists x y d sign, subtree t p = Some x /\ leaf_at t q y /\ d < n /\ (sign = 1%Z \/ sign = (-1)%Z) /\ touches n (direct n d sign) x y.

Lemma in_face_neighbors n t p x q : subtree t p = Some x ->
  (In q (flat_map (fun d => F n d x t) (face_directions n)) <-> adj n t p q).
Proof.
  intros Lx. rewrite in_flat_map. unfold face_directions. split.
  - intros (dir & H1 & H2). apply in_flat_map in H1 as (d & Hd & H1). apply in_seq in Hd. apply F_in in H2 as (y & Ly & H2).
    assert (Hs : exists sign, (sign = 1 \/ sign = -1)%Z /\ dir = direct n d sign).
    { destruct H1 as [<-|[<-|[]]]; eauto. }
    destruct Hs as (sign & Hs & ->). exists x, y, d, sign. split; [exact Lx|]. split; [exact Ly|]. split; [lia|]. split; [exact Hs|].
    exact H2.
  - intros (x' & y & d & sign & Lx' & Ly & Hd & Hs & H).
    rewrite Lx in Lx'. inversion Lx'; subst x'. exists (direct n d sign). split.
    + apply in_flat_map. exists d. split; [apply in_seq; lia|]. destruct Hs as [-> | ->]; cbn; auto.
    + apply F_in. exists y. split; [exact Ly|]. exact H.
Qed.

(* flooding from any node *)
Inductive floodedT (n : nat) (t : tree) (start : path) : path -> Prop :=
| floodedT_start x :
    subtree t start = Some x -> t_status x = unprocessed -> floodedT n t start start
| floodedT_step p q y :
    floodedT n t start p -> adj n t p q -> leaf_at t q y -> t_status y = unprocessed -> floodedT n t start q.

Lemma floodedT_leaf n t start x : wf n t -> leaf_at t start x -> forall q, floodedT n t start q <-> flooded n t start q.
Proof.
  intros W L q. split.
  - intros H. assert (G : flooded n t start q /\ exists y, leaf_at t q y); [|apply G].
    induction H as [x' H U|p q y Hp [IHp [xp Lp]] (x' & y' & d & sign & A1 & A2 & A3 & A4 & A5) Lq U].
    + split; [|eauto]. apply flooded_start with x; [exact L|]. destruct L as [L _]. congruence.
    + split; [|eauto]. assert (x' = xp) as -> by (destruct Lp; congruence). assert (y' = y) as -> by (destruct Lq, A2; congruence).
      apply (flooded_step n t start p xp q y d sign); auto. now apply (touches_face n t p xp q y d sign W Lp Lq A3 A4).
  - intros H. induction H as [x' L' U|p x' q y d sign Hp IHp Lp Lq Hd Hs SF U].
    + apply floodedT_start with x'; [apply L'|exact U].
    + apply (floodedT_step n t start p q y IHp); auto. exists x', y, d, sign. split; [apply Lp|]. split; [exact Lq|]. split; [exact Hd|].
      split; [exact Hs|]. now apply (touches_face n t p x' q y d sign W Lp Lq Hd Hs).
Qed.

Section Flood.
Context (n : nat) (t : tree) (start : path) (s : Z).
Hypothesis HG : good n t.
Hypothesis Hs : s <> unprocessed.
Hypothesis Hstart : exists x, subtree t start = Some x.

Definition status_of (q : path) : Z := match subtree t q with Some y => t_status y | None => 0%Z end.
Definition inb (q : path) (V : list path) : bool := if in_dec (list_eq_dec Nat.eq_dec) q V then true else false.

Lemma inb_spec q V : inb q V = true <-> In q V.
Proof. unfold inb. destruct (in_dec (list_eq_dec Nat.eq_dec) q V); split; auto; discriminate. Qed.

Record inv (V queue : list path) (tc : tree) : Prop := {
  inv_skel : forget_status tc = forget_status t;
  inv_good : good n tc;
  inv_status : forall q y, subtree t q = Some y -> exists y', subtree tc q = Some y' /\ t_status y' = if inb q V then s else t_status y;
  inv_V : forall q, In q V -> floodedT n t start q;
  inv_queue : forall q, In q queue -> (exists y, subtree t q = Some y) /\ (q = start \/ exists r, In r V /\ adj n t r q);
  inv_closed : forall r q, In r V -> adj n t r q -> In q V \/ In q queue \/ status_of q <> unprocessed;
  inv_start : In start V \/ In start queue \/ status_of start <> unprocessed
}.

Definition all_nodes : list (path * tree) := map (fun p => (p, match subtree t p with Some y => y | None => t end)) (nodes t).

Lemma all_nodes_in p x : subtree t p = Some x -> In (p, x) all_nodes.
Proof. intros H. unfold all_nodes. apply in_map_iff. exists p. rewrite H. split; [reflexivity|]. apply nodes_in. now exists x. Qed.

Definition measure (V : list path) : nat :=
  length (filter (fun py => (t_status (snd py) =? unprocessed)%Z && negb (inb (fst py) V)) all_nodes).

Lemma measure_cons V p x : subtree t p = Some x -> t_status x = unprocessed -> ~ In p V -> measure (p :: V) < measure V.
Proof.
  intros L U NI. apply all_nodes_in in L. unfold measure. revert L. generalize all_nodes as ls.
  assert (LE : forall ls, length (filter (fun py => (t_status (snd py) =? unprocessed)%Z && negb (inb (fst py) (p :: V))) ls) <=
                     length (filter (fun py => (t_status (snd py) =? unprocessed)%Z && negb (inb (fst py) V)) ls)).
  { induction ls as [|[q y] ls IH]; cbn [filter fst snd]; [lia|].
    destruct (t_status y =? unprocessed)%Z; cbn [andb]; [|exact IH].
    destruct (inb q V) eqn:E1; cbn [negb].
    - assert (inb q (p :: V) = true) as -> by (apply inb_spec; right; now apply inb_spec). exact IH.
    - destruct (inb q (p :: V)); cbn [negb length]; lia. }
  induction ls as [|[q y] ls IH]; [intros []|intros [E|Hin]].
  - inversion E; subst. cbn [filter fst snd]. rewrite U, Z.eqb_refl. cbn [andb].
    assert (inb p (p :: V) = true) as -> by (apply inb_spec; now left).
    destruct (inb p V) eqn:E1; [apply inb_spec in E1; contradiction|]. cbn [negb length]. specialize (LE ls). lia.
  - specialize (IH Hin). specialize (LE [(q, y)]). cbn [filter fst snd] in *.
    destruct (t_status y =? unprocessed)%Z; cbn [andb] in *; [|exact IH].
    destruct (inb q V), (inb q (p :: V)); cbn [negb length] in *; lia.
Qed.

Lemma flood_loop_correct m : forall k V queue tc, measure V <= m -> length queue <= k -> inv V queue tc ->
  exists fuel0 t', (forall fuel, fuel0 <= fuel -> flood_loop fuel n s tc queue = Ok t') /\
    exists V', inv V' [] t'.
Proof.
  induction m as [m IHm] using lt_wf_ind. induction k as [|k IHk]; intros V queue tc Hm Hk I.
  - destruct queue; [|cbn in Hk; lia]. exists 0, tc. split; [|now exists V].
    intros [|fuel] _; reflexivity.
  - destruct queue as [|p queue].
    { exists 0, tc. split; [|now exists V]. intros [|fuel] _; reflexivity. }
    destruct I as [I1 I2 I3 I4 I5 I6 I7].
    destruct (I5 p (or_introl eq_refl)) as [(y & Ly) Hp].
    destruct (I3 p y Ly) as (y' & Hy' & Sy').
    destruct (Z.eqb_spec (t_status y') unprocessed) as [U|U].
    + (* process *)
      destruct (inb p V) eqn:EV; [congruence|]. assert (NI : ~ In p V) by (intros X; apply inb_spec in X; congruence).
      rewrite Sy' in U.
      assert (FL : floodedT n t start p).
      { destruct Hp as [->|(r & Hr & A)].
        - now apply floodedT_start with y.
        - pose proof A as (x & y2 & d & sign & Lr & Lp & Hd & Hsg & SF).
          apply (floodedT_step n t start r p y2); auto.
          destruct Lp as [Lp _]. rewrite Ly in Lp. inversion Lp; now subst. }
      set (tc' := update p (set_status_node s) tc).
      assert (SK : forget_status tc' = forget_status t) by (unfold tc'; now rewrite forget_update).
      assert (G' : good n tc').
      { destruct I2 as (A1 & A2 & A3). unfold tc'. destruct (update_keeps p _ (keeps_status s) tc) as [E1 E2]. split.
        - apply wf_update; auto using keeps_status, wf_set_status.
        - split; [congruence|]. intros i Hi. unfold coord. rewrite E2. now apply A3. }
      destruct (subtree_same t tc' p y (eq_sym SK) Ly) as (yc & Hyc & Eyc).
      assert (FD : Forall (fun d => n <= length d) (face_directions n)).
      { apply Forall_forall. intros d Hd. apply in_flat_map in Hd as (i & _ & [<-|[<-|[]]]); unfold direct; rewrite map_length, seq_length; lia. }
      pose proof (push_neighbors_F n tc' p yc (face_directions n) queue G' Hyc FD) as PN.
      assert (EF : flat_map (fun d => F n d yc tc') (face_directions n) = flat_map (fun d => F n d y t) (face_directions n)).
      { apply flat_map_ext. intros d. apply F_same; congruence. }
      rewrite EF in PN. set (queue' := queue ++ flat_map (fun d => F n d y t) (face_directions n)) in *.
      assert (I' : inv (p :: V) queue' tc').
      { constructor; auto.
        - intros q z Hz. destruct (I3 q z Hz) as (z' & Hz' & Sz'). 
          destruct (subtree_update_status p s tc q z' Hz') as (z2 & Hz2 & Sz2). exists z2. split; [exact Hz2|]. rewrite Sz2, Sz'.
          destruct (list_eq_dec Nat.eq_dec q p) as [->|Hne].
          + assert (inb p (p :: V) = true) as -> by (apply inb_spec; now left). reflexivity.
          + destruct (inb q V) eqn:E1.
            * assert (inb q (p :: V) = true) as -> by (apply inb_spec; right; now apply inb_spec). reflexivity.
            * destruct (inb q (p :: V)) eqn:E2; [|reflexivity]. apply inb_spec in E2 as [E2|E2]; [congruence|].
              apply inb_spec in E2. congruence.
        - intros q [<-|Hq]; auto.
        - intros q Hq. unfold queue' in Hq. apply in_app_iff in Hq as [Hq|Hq].
          + destruct (I5 q (or_intror Hq)) as [A [B0|(r & Hr & B0)]]; (split; [exact A|]); [now left|right]. exists r. split; [now right|exact B0].
          + apply (in_face_neighbors n t p y q Ly) in Hq. split.
            * destruct Hq as (_ & z & _ & _ & _ & [Lz _] & _). eauto.
            * right. exists p. split; [now left|exact Hq].
        - intros r q [<-|Hr] A.
          + right; left. unfold queue'. apply in_app_iff. right. now apply (in_face_neighbors n t p y q Ly).
          + destruct (I6 r q Hr A) as [B0|[[B0|B0]|B0]]; auto; [left; now right|left; now left|].
            right; left. unfold queue'. apply in_app_iff. now left.
        - destruct I7 as [B0|[[B0|B0]|B0]]; auto; [left; now right|left; now left|].
          right; left. unfold queue'. apply in_app_iff. now left. }
      pose proof (measure_cons V p y Ly U NI) as ML.
      destruct (IHm (measure (p :: V)) ltac:(lia) (length queue') (p :: V) queue' tc' (le_n _) (le_n _) I') as (f0 & t' & Hf & HV).
      exists (S f0), t'. split; [|exact HV]. intros [|fuel] Hfuel; [lia|]. cbn [flood_loop].
      rewrite Hy'. cbn [of_option_ub bind]. rewrite Sy', U, Z.eqb_refl. fold tc'. rewrite PN. cbn [bind]. apply Hf. lia.
    + assert (I' : inv V queue tc).
      { assert (Ub0 : In p V \/ status_of p <> unprocessed).
        { destruct (inb p V) eqn:EV; [left; now apply inb_spec|right]. unfold status_of. rewrite Ly. congruence. }
        constructor; auto.
        - intros q Hq. apply I5. now right.
        - intros r q Hr A. destruct (I6 r q Hr A) as [B0|[[<-|B0]|B0]]; auto. destruct Ub0; auto.
        - destruct I7 as [B0|[[<-|B0]|B0]]; auto. destruct Ub0; auto. }
      destruct (IHk V queue tc Hm ltac:(cbn in Hk; lia) I') as (f0 & t' & Hf & HV).
      exists (S f0), t'. split; [|exact HV]. intros [|fuel] Hfuel; [lia|]. cbn [flood_loop].
      rewrite Hy'. cbn [of_option_ub bind]. destruct (Z.eqb_spec (t_status y') unprocessed); [contradiction|]. apply Hf. lia.
Qed.

Lemma flooded_in_V V t' q : inv V [] t' -> floodedT n t start q -> In q V.
Proof.
  intros I H. induction H as [x L U|p q y Hp IHp A Lq U].
  - destruct (inv_start _ _ _ I) as [X|[[]|X]]; [exact X|]. exfalso. apply X. unfold status_of. now rewrite L.
  - destruct (inv_closed _ _ _ I p q IHp A) as [X|[[]|X]]; [exact X|]. exfalso. apply X. unfold status_of. now rewrite (proj1 Lq).
Qed.

Lemma flood_loop_any :
  exists fuel0 t', (forall fuel, fuel0 <= fuel -> flood_loop fuel n s t [start] = Ok t') /\ good n t' /\
    forget_status t' = forget_status t /\
    forall q y, subtree t q = Some y -> exists y', subtree t' q = Some y' /\
      (floodedT n t start q -> t_status y' = s) /\ (~ floodedT n t start q -> t_status y' = t_status y) /\
      (t_status y' = t_status y \/ t_status y' = s).
Proof.
  destruct Hstart as [x L].
  assert (I0 : inv [] [start] t).
  { constructor.
    - reflexivity.
    - exact HG.
    - intros q y H. exists y. auto.
    - intros q [].
    - intros q [<-|[]]. split; [eauto|now left].
    - intros r q [].
    - right; left. now left. }
  destruct (flood_loop_correct (measure []) 1 [] [start] t (le_n _) (le_n _) I0) as (f0 & t' & Hf & V & I).
  exists f0, t'. split; [exact Hf|]. split; [apply (inv_good _ _ _ I)|]. split.
  - apply (inv_skel _ _ _ I).
  - intros q y Hy. destruct (inv_status _ _ _ I q y Hy) as (y' & Hy' & Sy'). exists y'. split; [exact Hy'|]. split; [|split].
    + intros FL. apply (flooded_in_V V t' q I) in FL. rewrite Sy'. now apply inb_spec in FL as ->.
    + intros NF. rewrite Sy'. destruct (inb q V) eqn:E; [|reflexivity]. exfalso. apply NF. apply (inv_V _ _ _ I). now apply inb_spec.
    + rewrite Sy'. destruct (inb q V); auto.
Qed.
End Flood.

Lemma flood_fill_correct n t start x s :
  reachable n t -> leaf_at t start x -> s <> unprocessed ->
  exists fuel0 t', (forall fuel, fuel0 <= fuel -> flood_fill fuel n t start s = Ok t') /\
    forget_status t' = forget_status t /\
    forall q y, subtree t q = Some y -> exists y', subtree t' q = Some y' /\
      (flooded n t start q -> t_status y' = s) /\ (~ flooded n t start q -> t_status y' = t_status y).
Proof.
  intros R L Hs. pose proof (reachable_good n t R) as G.
  destruct (flood_loop_any n t start s G Hs (ex_intro _ x (proj1 L))) as (f0 & t' & Hf & _ & SK & ST).
  exists (S f0), t'. split; [|split; [exact SK|]].
  - intros [|fuel] Hfuel; [lia|]. cbn [flood_fill]. destruct (Z.eqb_spec s unprocessed); [contradiction|].
    rewrite (proj1 L). cbn [of_option_ub bind]. unfold is_leaf. rewrite (proj2 L). cbn [negb bind]. apply Hf. lia.
  - intros q y Hy. destruct (ST q y Hy) as (y' & H1 & H2 & H3 & _). exists y'. split; [exact H1|].
    pose proof (floodedT_leaf n t start x (proj1 G) L q) as E. tauto.
Qed.

(* calls on any node *)
Lemma flood_fill_any n s : s <> unprocessed -> forall t, good n t -> forall p x, subtree t p = Some x ->
  exists fuel0 t', (forall fuel, fuel0 <= fuel -> flood_fill fuel n t p s = Ok t') /\ good n t' /\
    forget_status t' = forget_status t /\
    (forall q y, subtree t q = Some y -> exists y', subtree t' q = Some y' /\ (t_status y' = t_status y \/ t_status y' = s)) /\
    exists d y, leaf_at t (p ++ repeat 0 d) y /\
      forall q, flooded n t (p ++ repeat 0 d) q -> exists z, subtree t' q = Some z /\ t_status z = s.
Proof.
  intros Hs t G p x. revert p. induction x as [l c st e cs IH] using tree_ind'. intros p Hx.
  destruct cs as [|c0 cs].
  - destruct (flood_loop_any n t p s G Hs (ex_intro _ _ Hx)) as (f0 & t' & Hf & G' & SK & ST).
    exists (S f0), t'. split; [|split; [exact G'|split; [exact SK|split]]].
    + intros [|fuel] Hfuel; [lia|]. cbn [flood_fill]. destruct (Z.eqb_spec s unprocessed); [contradiction|].
      rewrite Hx. cbn [of_option_ub bind is_leaf t_children negb]. apply Hf. lia.
    + intros q y Hy. destruct (ST q y Hy) as (y' & H1 & H2 & H3 & H4). eauto.
    + assert (L : leaf_at t p (Node l c st e [])) by (split; [exact Hx|reflexivity]).
      exists 0, (Node l c st e []). cbn [repeat]. rewrite app_nil_r. split; [exact L|]. intros q FL.
      apply (floodedT_leaf n t p _ (proj1 G) L q) in FL.
      assert (exists y, subtree t q = Some y) as [y Hy].
      { destruct FL as [x' E|p' q y _ _ [E _] _]; eauto. }
      destruct (ST q y Hy) as (y' & H1 & H2 & _). eauto.
  - assert (H0 : subtree t (p ++ [0]) = Some c0) by (rewrite subtree_app, Hx; reflexivity).
    inversion IH as [|? ? IH0 _]; subst.
    destruct (IH0 _ H0) as (f0 & t1 & Hf & G1 & SK1 & ST1 & d & y & Ly & FL1).
    assert (exists x1, subtree t1 p = Some x1) as [x1 Hx1].
    { destruct (ST1 p _ Hx) as (z & Hz & _). eauto. }
    destruct (flood_loop_any n t1 p s G1 Hs (ex_intro _ _ Hx1)) as (f1 & t' & Hf1 & G' & SK & ST).
    exists (S (f0 + f1)), t'. split; [|split; [exact G'|split; [congruence|split]]].
    + intros [|fuel] Hfuel; [lia|]. cbn [flood_fill]. destruct (Z.eqb_spec s unprocessed); [contradiction|].
      rewrite Hx. cbn [of_option_ub bind is_leaf t_children negb]. rewrite Hf by lia. cbn [bind]. apply Hf1. lia.
    + intros q z Hz. destruct (ST1 q z Hz) as (z1 & Hz1 & Sz1). destruct (ST q z1 Hz1) as (z2 & Hz2 & _ & _ & Sz2).
      exists z2. split; [exact Hz2|]. destruct Sz1, Sz2; intuition congruence.
    + exists (S d), y. cbn [repeat]. replace (p ++ 0 :: repeat 0 d) with ((p ++ [0]) ++ repeat 0 d) by (now rewrite <- app_assoc).
      split; [exact Ly|]. intros q FL. destruct (FL1 q FL) as (z & Hz & Sz).
      destruct (ST q z Hz) as (z2 & Hz2 & _ & _ & Sz2). exists z2. split; [exact Hz2|]. destruct Sz2; congruence.
Qed.

Lemma flood_fill_nonleaf n t p x s : reachable n t -> subtree t p = Some x -> s <> unprocessed ->
  exists fuel0 t', (forall fuel, fuel0 <= fuel -> flood_fill fuel n t p s = Ok t') /\
    forget_status t' = forget_status t /\
    (forall q y, subtree t q = Some y -> exists y', subtree t' q = Some y' /\ (t_status y' = t_status y \/ t_status y' = s)) /\
    exists start y, Forall (eq 0) start /\ leaf_at t (p ++ start) y /\
      forall q, flooded n t (p ++ start) q -> exists z, subtree t' q = Some z /\ t_status z = s.
Proof.
  intros R Hx Hs. destruct (flood_fill_any n s Hs t (reachable_good n t R) p x Hx) as (f0 & t' & H1 & _ & H2 & H3 & d & y & L & H4).
  exists f0, t'. repeat split; auto. exists (repeat 0 d), y. split; [|split; assumption].
  apply Forall_forall. intros k Hk. symmetry. eapply repeat_spec; eassumption.
Qed.

Lemma flood_fill_throws fuel n t p : 0 < fuel -> flood_fill fuel n t p unprocessed = Throw.
Proof. destruct fuel; [lia|]. reflexivity. Qed.

(** ** tree table *)
Definition write_list (nv : nat) : list tree -> nat -> table -> list Z * nat * table :=
  fix loop (cs : list tree) (row : nat) (tb : table) : list Z * nat * table :=
  match cs with
  | [] => ([], row, tb)
  | c :: cs' =>
      let '(r, row1, tb1) := write_tree nv c row tb in
      let '(rs, row2, tb2) := loop cs' row1 tb1 in
      (Z.of_nat r :: rs, row2, tb2)
  end.

Definition elem_z (e : option Z) : Z := match e with Some i => i | None => (-1)%Z end.

Lemma write_tree_eq nv l c s e cs row tb :
  write_tree nv (Node l c s e cs) row tb =
  let '(rows, row', tb') := write_list nv cs (S row) tb in
  (row, row', write_row tb' row (elem_z e :: s :: rows ++ repeat (-1)%Z (nv - length rows))).
Proof. reflexivity. Qed.

(* the rows of consecutive subtrees starting at [row] *)
Fixpoint child_rows (cs : list tree) (row : nat) : list Z :=
  match cs with [] => [] | c :: cs' => Z.of_nat row :: child_rows cs' (row + count c) end.

Lemma child_rows_length cs row : length (child_rows cs row) = length cs.
Proof. revert row. induction cs; intros; cbn; auto. Qed.

Inductive encodes (nv : nat) (tb : table) : tree -> nat -> Prop :=
| enc l c s e cs row :
    read_row tb row = Ok (elem_z e :: s :: child_rows cs (S row) ++ repeat (-1)%Z (nv - length cs)) ->
    encodes_list nv tb cs (S row) -> encodes nv tb (Node l c s e cs) row
with encodes_list (nv : nat) (tb : table) : list tree -> nat -> Prop :=
| enc_nil row : encodes_list nv tb [] row
| enc_cons c cs row : encodes nv tb c row -> encodes_list nv tb cs (row + count c) -> encodes_list nv tb (c :: cs) row.

Lemma read_write_row tb r d r' : read_row (write_row tb r d) r' = if r =? r' then Ok d else read_row tb r'.
Proof. reflexivity. Qed.

(* write_tree: rows allocated, rows outside untouched *)
Definition wspec (nv : nat) (t : tree) : Prop := forall row tb,
  exists tb', write_tree nv t row tb = (row, row + count t, tb') /\
    (forall r, r < row \/ row + count t <= r -> read_row tb' r = read_row tb r) /\
    (forall tb'', (forall r, row <= r < row + count t -> read_row tb'' r = read_row tb' r) -> encodes nv tb'' t row).

Lemma write_list_spec nv cs : Forall (wspec nv) cs -> forall row tb,
  exists tb', write_list nv cs row tb = (child_rows cs row, row + count_list cs, tb') /\
    (forall r, r < row \/ row + count_list cs <= r -> read_row tb' r = read_row tb r) /\
    (forall tb'', (forall r, row <= r < row + count_list cs -> read_row tb'' r = read_row tb' r) -> encodes_list nv tb'' cs row).
Proof.
  intros H. induction H as [|c cs Hc H IH]; intros row tb; cbn [write_list child_rows count_list]; fold (write_list nv).
  - exists tb. rewrite Nat.add_0_r. split; [reflexivity|]. split; [auto|]. intros. constructor.
  - destruct (Hc row tb) as (tb1 & E1 & O1 & D1). rewrite E1.
    destruct (IH (row + count c) tb1) as (tb2 & E2 & O2 & D2). rewrite E2. exists tb2. rewrite Nat.add_assoc. split; [reflexivity|]. split.
    + intros r Hr. rewrite O2, O1; [reflexivity|lia|lia].
    + intros tb'' Heq. constructor.
      * apply D1. intros r Hr. rewrite Heq by lia. apply O2. lia.
      * apply D2. intros r Hr. apply Heq. lia.
Qed.

Lemma write_tree_spec nv t : wspec nv t.
Proof.
  induction t as [l c s e cs IH] using tree_ind'. intros row tb. rewrite write_tree_eq.
  destruct (write_list_spec nv cs IH (S row) tb) as (tb1 & E1 & O1 & D1). rewrite E1.
  eexists. split; [rewrite count_eq, <- plus_n_Sm; reflexivity|]. rewrite count_eq. split.
  - intros r Hr. rewrite read_write_row. destruct (Nat.eqb_spec row r); [lia|]. apply O1. lia.
  - intros tb'' Heq. constructor.
    + rewrite Heq by lia. rewrite read_write_row, Nat.eqb_refl. now rewrite child_rows_length.
    + apply D1. intros r Hr. rewrite Heq by lia. rewrite read_write_row. destruct (Nat.eqb_spec row r); [lia|reflexivity].
Qed.

Fixpoint depth (t : tree) : nat := match t with Node _ _ _ _ cs => S (fold_right Nat.max 0 (map depth cs)) end.

Definition elems_ok (t : tree) : Prop := forall p x e, subtree t p = Some x -> t_elem x = Some e -> (0 <= e)%Z.

Lemma nth_child_rows cs row i : i < length cs -> exists r, nth_error (child_rows cs row) i = Some (Z.of_nat r).
Proof.
  revert row i. induction cs as [|c cs IH]; intros row [|i] Hi; cbn in *; try lia; [eauto|]. apply IH. lia.
Qed.

Lemma skipn_cons {A} k (l : list A) x r : skipn k l = x :: r <-> nth_error l k = Some x /\ skipn (S k) l = r.
Proof.
  revert l. induction k as [|k IH]; intros [|y l].
  - cbn. split; [discriminate|intros [H _]; discriminate].
  - cbn. split; [intros H; inversion H; auto|intros [H <-]; congruence].
  - cbn. split; [discriminate|intros [H _]; discriminate].
  - change (skipn (S k) (y :: l)) with (skipn k l). change (skipn (S (S k)) (y :: l)) with (skipn (S k) l).
    change (nth_error (y :: l) (S k)) with (nth_error l k). apply IH.
Qed.

Lemma encodes_inv nv tb l c s e cs row : encodes nv tb (Node l c s e cs) row ->
  read_row tb row = Ok (elem_z e :: s :: child_rows cs (S row) ++ repeat (-1)%Z (nv - length cs)) /\
  encodes_list nv tb cs (S row).
Proof. intros H. inversion H. auto. Qed.
Lemma encodes_list_inv nv tb c cs row : encodes_list nv tb (c :: cs) row ->
  encodes nv tb c row /\ encodes_list nv tb cs (row + count c).
Proof. intros H. inversion H. auto. Qed.

Definition read_loop (fuel n : nat) (tb : table) (data : list Z) : nat -> list tree -> outcome (list tree) :=
  fix loop (i : nat) (cs : list tree) : outcome (list tree) :=
    match cs with
    | [] => Ok []
    | c :: cs' =>
        let! d := of_option_ub (nth_error data (2 + i)) in
        let! c' := (if (d <? 0)%Z then Throw else read_tree fuel n tb c (Z.to_nat d)) in
        let! rest := loop (S i) cs' in
        Ok (c' :: rest)
    end.

Lemma read_tree_eq fuel n tb t row :
  read_tree (S fuel) n tb t row =
  (let! data := read_row tb row in
   let! d0 := of_option_ub (nth_error data 0) in
   let! d1 := of_option_ub (nth_error data 1) in
   let! d2 := of_option_ub (nth_error data 2) in
   let t1 := if (0 <=? d0)%Z then set_elem_node (Some d0) t else t in
   let t2 := set_status_node d1 t1 in
   if (0 <=? d2)%Z then
     if is_leaf t2 then
       let t3 := refine_node n t2 in
       let! cs := read_loop fuel n tb data 0 (t_children t3) in
       let (l, c, s, e, _) := t3 in Ok (Node l c s e cs)
     else Throw
   else Ok t2).
Proof. reflexivity. Qed.

Lemma read_tree_spec n tb t : wf n t -> elems_ok t -> forall row, encodes (2 ^ n) tb t row ->
  forall fuel, depth t <= fuel -> read_tree fuel n tb (Node (t_level t) (t_coords t) unprocessed None []) row = Ok t.
Proof.
  induction t as [l c s e cs IH] using tree_ind'. intros W EO row E fuel Hf.
  apply encodes_inv in E as [HR HL]. destruct fuel as [|fuel]; [cbn in Hf; lia|].
  rewrite read_tree_eq. cbn [t_level t_coords]. rewrite HR. cbn [bind nth_error of_option_ub].
  destruct (wf_inv _ _ _ _ _ _ W) as (Hl & Hc & HF).
  assert (P0 : 2 ^ n <> 0) by (apply Nat.pow_nonzero; lia).
  set (t1 := if (0 <=? elem_z e)%Z then _ else _).
  assert (E1 : set_status_node s t1 = Node l c s e []).
  { unfold t1. destruct e as [e|]; cbn [elem_z].
    - specialize (EO [] _ e eq_refl eq_refl). destruct (Z.leb_spec 0 e); [reflexivity|lia].
    - reflexivity. }
  destruct cs as [|c0 cs0] eqn:Ecs.
  - cbn [child_rows app length]. rewrite Nat.sub_0_r. destruct (2 ^ n) as [|k]; [lia|]. cbn [repeat of_option_ub bind Z.leb Z.compare].
    now rewrite E1.
  - rewrite <- Ecs in *. assert (D2 : exists r, nth_error (child_rows cs (S row) ++ repeat (-1)%Z (2 ^ n - length cs)) 0 = Some (Z.of_nat r)).
    { destruct (nth_child_rows cs (S row) 0) as [r Hr]; [rewrite Ecs; cbn; lia|]. exists r.
      rewrite nth_error_app1; [exact Hr|]. rewrite child_rows_length, Ecs. cbn. lia. }
    destruct D2 as [r D2]. cbn [nth_error] in D2.
    destruct (child_rows cs (S row) ++ repeat (-1)%Z (2 ^ n - length cs)) as [|d2 rest] eqn:ER; [discriminate|]. inversion D2; subst d2.
    cbn [of_option_ub bind]. destruct (Z.leb_spec 0 (Z.of_nat r)); [|lia]. rewrite E1. unfold is_leaf. cbn [t_children refine_node].
    destruct Hc as [Hc|[Hlen Hc]]; [rewrite Hc in Ecs; discriminate|].
    rewrite <- ER. rewrite Hlen, Nat.sub_diag. cbn [repeat]. rewrite app_nil_r.
    set (loop := read_loop fuel n tb (elem_z e :: s :: child_rows cs (S row))).
    assert (LP : forall k cs1 row1, encodes_list (2 ^ n) tb cs1 row1 -> skipn k cs = cs1 ->
              (forall j, nth_error (child_rows cs (S row)) (k + j) = nth_error (child_rows cs1 row1) j) ->
              loop k (skipn k (make_children n l c)) = Ok cs1).
    { intros k cs1. revert k. induction cs1 as [|ch cs1 IHl]; intros k row1 EL SK RW.
      - assert (length cs <= k).
        { assert (length (skipn k cs) = 0) by now rewrite SK. rewrite skipn_length in H0. lia. }
        rewrite skipn_all2 by (rewrite make_children_length; lia). reflexivity.
      - apply skipn_cons in SK as [NE SK'].
        assert (Lk : k < 2 ^ n) by (rewrite <- Hlen; apply nth_error_Some; congruence).
        assert (SKm : skipn k (make_children n l c) = Node (S l) (child_coords n c k) unprocessed None [] :: skipn (S k) (make_children n l c)).
        { apply skipn_cons. split; [now apply make_children_nth|reflexivity]. }
        rewrite SKm. unfold loop. cbn [read_loop]. fold (read_loop fuel n tb (elem_z e :: s :: child_rows cs (S row))). fold loop.
        cbn [Nat.add nth_error]. pose proof (RW 0) as RW0. rewrite Nat.add_0_r in RW0. rewrite RW0. cbn [child_rows nth_error of_option_ub bind].
        destruct (Z.ltb_spec (Z.of_nat row1) 0); [lia|]. rewrite Nat2Z.id.
        apply encodes_list_inv in EL as [Ech Ecs1].
        pose proof (nth_error_In _ _ NE) as Hin. rewrite Forall_forall in IH, HF. destruct (Hc k ch NE) as [C1 C2].
        rewrite <- C1, <- C2. rewrite (IH ch Hin (HF ch Hin)).
        + cbn [bind]. erewrite IHl; [reflexivity|eassumption|exact SK'|]. intros j. specialize (RW (S j)). rewrite <- plus_n_Sm in RW. exact RW.
        + intros p x e0 Hx. apply (EO (k :: p) x e0). cbn [subtree t_children]. now rewrite NE.
        + assumption.
        + assert (depth ch <= fold_right Nat.max 0 (map depth cs)).
          { clear -Hin. induction cs as [|x cs IHc]; [destruct Hin|]. cbn. destruct Hin as [->|Hin]; [lia|]. specialize (IHc Hin). lia. }
          cbn [depth] in Hf. lia. }
    pose proof (LP 0 cs (S row) HL eq_refl (fun j => eq_refl)) as LP0. change (skipn 0 (make_children n l c)) with (make_children n l c) in LP0.
    rewrite LP0. reflexivity.
Qed.

Lemma tree_table_round_trip n t : reachable n t -> (forall p x e, subtree t p = Some x -> t_elem x = Some e -> (0 <= e)%Z) ->
  exists tb fuel0, write_tree (2 ^ n) t 0 [] = (0, count t, tb) /\
    (forall r, (exists d, read_row tb r = Ok d) <-> r < count t) /\
    forall fuel, fuel0 <= fuel -> read_tree fuel n tb (new_tree n) 0 = Ok t.
Proof.
  intros R EO. destruct (reachable_wf n t R) as (W & L & C).
  destruct (write_tree_spec (2 ^ n) t 0 []) as (tb & E & O & D). exists tb, (depth t). split; [exact E|].
  pose proof (D tb (fun _ _ => eq_refl)) as EN. split.
  - intros r. split.
    + intros [d Hd]. destruct (Nat.lt_ge_cases r (count t)) as [X|X]; [exact X|]. rewrite O in Hd by lia. discriminate.
    + intros Hr.
      assert (G : (forall t row, encodes (2 ^ n) tb t row -> forall r, row <= r < row + count t -> exists d, read_row tb r = Ok d)).
      { clear. intros t. induction t as [l c s e cs IH] using tree_ind'. intros row E r Hr. rewrite count_eq in Hr. inversion E; subst.
        destruct (Nat.eq_dec r row) as [->|Hne]; [eauto|].
        assert (HL : encodes_list (2 ^ n) tb cs (S row)) by assumption. 
        assert (Hr' : S row <= r < S row + count_list cs) by lia. clear - IH HL Hr'. revert HL Hr'. generalize (S row) as r0.
        induction IH as [|ch cs Hch IH IHl]; intros r0 HL Hr; cbn [count_list] in Hr; [lia|]. inversion HL; subst.
        destruct (Nat.lt_ge_cases r (r0 + count ch)) as [X|X]; [eapply Hch; [eassumption|lia]|eapply IHl; [eassumption|lia]]. }
      apply (G t 0 EN r). lia.
  - intros fuel Hf. pose proof (read_tree_spec n tb t W EO 0 EN fuel Hf) as RT. rewrite L, C in RT. exact RT.
Qed.

(** ** refine and unrefine *)
Lemma update_nth_update_nth {A} i (f g : A -> A) l : update_nth i f (update_nth i g l) = update_nth i (fun x => f (g x)) l.
Proof. revert i. induction l as [|x l IH]; intros [|i]; cbn; auto; f_equal; auto. Qed.

Lemma update_nth_id {A} i (f : A -> A) l x : nth_error l i = Some x -> f x = x -> update_nth i f l = l.
Proof. revert i. induction l as [|y l IH]; intros [|i] H E; cbn in *; try discriminate; f_equal; eauto. congruence. Qed.

Lemma update_id p f : forall t x, subtree t p = Some x -> f x = x -> update p f t = t.
Proof.
  induction p as [|i p IH]; intros [l c s e cs] x H E; cbn [update subtree t_children] in *; [congruence|].
  destruct (nth_error cs i) as [ch|] eqn:Ec; [|discriminate]. f_equal. eapply update_nth_id; [exact Ec|]. eapply IH; eassumption.
Qed.

Lemma update_nth_ext {A} i (f g : A -> A) l : (forall x, f x = g x) -> update_nth i f l = update_nth i g l.
Proof. intros H. revert i. induction l as [|x l IH]; intros [|i]; cbn; auto; f_equal; auto. Qed.

Lemma update_update p f g : forall t, update p f (update p g t) = update p (fun x => f (g x)) t.
Proof.
  induction p as [|i p IH]; intros [l c s e cs]; cbn [update]; [reflexivity|]. f_equal. rewrite update_nth_update_nth.
  apply update_nth_ext. exact IH.
Qed.

Lemma subtree_update p f : forall t x, subtree t p = Some x -> subtree (update p f t) p = Some (f x).
Proof.
  induction p as [|i p IH]; intros [l c s e cs] x H; cbn [update subtree t_children] in *; [congruence|].
  rewrite nth_error_update_nth, Nat.eqb_refl. destruct (nth_error cs i) as [ch|]; [|discriminate]. cbn [option_map]. now apply IH.
Qed.

Lemma refine_unrefine n t p x : leaf_at t p x -> tree_run n t [Refine p; Unrefine p] = Ok t.
Proof.
  intros [H L]. cbn [tree_run tree_step]. rewrite H. cbn [of_option_ub bind]. unfold is_leaf. rewrite L.
  rewrite (subtree_update p (refine_node n) t x H). cbn [of_option_ub bind]. rewrite update_update. f_equal.
  eapply update_id; [exact H|]. destruct x as [l c s e cs]. cbn in *. congruence.
Qed.

Lemma refine_nonleaf n t p x : subtree t p = Some x -> t_children x <> [] -> tree_step n t (Refine p) = Throw.
Proof. intros H L. cbn [tree_step]. rewrite H. cbn [of_option_ub bind]. unfold is_leaf. now destruct (t_children x). Qed.

Lemma unrefine_leaf n t p x : leaf_at t p x -> tree_step n t (Unrefine p) = Ok t.
Proof.
  intros [H L]. cbn [tree_step]. rewrite H. cbn [of_option_ub bind]. f_equal. eapply update_id; [exact H|].
  destruct x as [l c s e cs]. cbn in *. congruence.
Qed.

Lemma children_partition n t p x (pos : nat -> Q) : reachable n t -> subtree t p = Some x -> t_children x <> [] ->
  (in_half_open_box n x pos <->
   exists k ch, nth_error (t_children x) k = Some ch /\ in_half_open_box n ch pos) /\
  forall k ch k' ch', nth_error (t_children x) k = Some ch -> nth_error (t_children x) k' = Some ch' ->
   in_half_open_box n ch pos -> in_half_open_box n ch' pos -> k = k'.
Proof.
  intros R Hx Hne. destruct (reachable_wf n t R) as (W0 & _). destruct (wf_subtree n t p x W0 Hx) as [W _].
  assert (MID : forall i, (lo x i < (lo x i + hi x i) * (1 # 2) /\ (lo x i + hi x i) * (1 # 2) < hi x i)%Q).
  { intros i. pose proof (lo_hi x i) as H. split.
    - apply Qmult_lt_l with 2%Q; [reflexivity|]. setoid_replace (2 * ((lo x i + hi x i) * (1 # 2)))%Q with (lo x i + hi x i)%Q by field.
      setoid_replace (2 * lo x i)%Q with (lo x i + lo x i)%Q by ring. now apply Qplus_lt_r.
    - apply Qmult_lt_l with 2%Q; [reflexivity|]. setoid_replace (2 * ((lo x i + hi x i) * (1 # 2)))%Q with (lo x i + hi x i)%Q by field.
      setoid_replace (2 * hi x i)%Q with (hi x i + hi x i)%Q by ring. now apply Qplus_lt_l. }
  split; [split|].
  - intros HB. destruct (bit_surj n (fun i => Qle_bool ((lo x i + hi x i) * (1 # 2)) (pos i))) as (k & Hk & Hbit).
    destruct (child_exists n x k W Hne Hk) as [ch E]. exists k, ch. split; [exact E|]. intros i Hi.
    destruct (HB i Hi) as [H1 H2]. pose proof (child_lo n x k ch i W E Hi) as C. specialize (Hbit i Hi). destruct (bit n k i).
    + destruct C as [C1 C2]. rewrite C1, C2. split; [|exact H2]. now apply Qle_bool_iff.
    + destruct C as [C1 C2]. rewrite C1, C2. split; [exact H1|].
      destruct (Qlt_le_dec (pos i) ((lo x i + hi x i) * (1 # 2))) as [L|L]; [exact L|]. apply Qle_bool_iff in L. congruence.
  - intros (k & ch & E & H) i Hi. destruct (H i Hi) as [H1 H2]. destruct (MID i) as [M1 M2].
    pose proof (child_lo n x k ch i W E Hi) as C. destruct (bit n k i); destruct C as [C1 C2]; rewrite C1 in H1; rewrite C2 in H2; split; auto.
    + apply Qlt_le_weak. eapply Qlt_le_trans; eassumption.
    + eapply Qlt_trans; eassumption.
  - intros k ch k' ch' E E' H H'. destruct (child_level n x k ch W E) as [_ Lk]. destruct (child_level n x k' ch' W E') as [_ Lk'].
    apply (bit_inj n); [assumption..|]. intros i Hi. destruct (H i Hi) as [H1 H2]. destruct (H' i Hi) as [H1' H2'].
    pose proof (child_lo n x k ch i W E Hi) as C. pose proof (child_lo n x k' ch' i W E' Hi) as C'.
    destruct (bit n k i), (bit n k' i); try reflexivity; destruct C as [C1 C2], C' as [C1' C2']; exfalso.
    + rewrite C1 in H1. rewrite C2' in H2'. apply (Qlt_irrefl (pos i)). exact (Qlt_le_trans _ _ _ H2' H1).
    + rewrite C2 in H2. rewrite C1' in H1'. apply (Qlt_irrefl (pos i)). exact (Qlt_le_trans _ _ _ H2 H1').
Qed.
