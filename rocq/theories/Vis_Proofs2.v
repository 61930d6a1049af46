(** Proofs about the sampling of elements: edges, one dimension, the values fetched and the bounds. *)
From Coq Require Import Reals List Arith Bool Lia Lra.
From Verif Require Import Outcome Loop RSum Tensor_Model Tensor_Spec Tensor_Proofs Row_Model Row_Spec Row_Proofs Basis_Model Basis_Spec Basis_Proofs Spatial_Proofs3 Jac_Proofs4 Snap_Spec Snap_Proofs2 Vis_Model Vis_Spec Vis_Proofs1.
Import ListNotations.
Local Open Scope R_scope.

Lemma through_sum n rs node m (c : nat -> R) (g : nat -> nat -> R) y : through n rs node (fun f => rsum m (fun j => c j * g j f)) y = rsum m (fun j => c j * through n rs node (g j) y).
Proof.
  unfold through. rewrite (rsum_ext m _ (fun j => rsum (rs ^ n) (fun k => c j * (rprod n (fun l => lagrange_poly rs node (digit rs n l k) (y l)) * g j k)))) by (intros; now rewrite rsum_scal).
  rewrite rsum_swap. apply rsum_ext. intros k K. rewrite <- rsum_scal. apply rsum_ext. intros. ring.
Qed.

Section Edges.
Variables (d : vis).
Let nd := v_dim d. Let rs := v_row_size d. Let node := v_node d. Let P := (2 ^ (nd - 1))%nat.
Hypotheses (ND : (2 <= nd)%nat) (RS : (2 <= rs)%nat) (DI : distinct rs node) (EN : ends rs node (v_boundary d)).

Lemma per_dim : (n_edge d / v_dim d = P)%nat. Proof. unfold n_edge. fold nd. apply Nat.div_mul. lia. Qed.
Lemma col0 a : (a * n_edge d / v_dim d = a * P)%nat. Proof. unfold n_edge. fold nd. rewrite Nat.mul_assoc. apply Nat.div_mul. lia. Qed.
Lemma P_pos : (0 < P)%nat. Proof. unfold P. apply pow_pos. lia. Qed.

Lemma edge_qpoints_ok fuel a v : (nd <= fuel)%nat -> (a < nd)%nat ->
  exists eq, edge_qpoints fuel d a v = Ok eq /\ forall i j, (i < rs)%nat -> (j < P)%nat -> eq i j = through (nd - 1) rs node (fun k => variable d v (i_qpoint (nth_row nd rs a k) i)) (fun l => INR (digit 2 (nd - 1) l j)).
Proof.
  intros F A. unfold edge_qpoints. rewrite per_dim. fold rs. set (body := fun (i_qpoint : nat) (rows : nat -> nat -> R) => _).
  destruct (ofold_seq body (fun m eq => forall i j, (i < m)%nat -> (j < P)%nat -> eq i j = through (nd - 1) rs node (fun k => variable d v (i_qpoint (nth_row nd rs a k) i)) (fun l => INR (digit 2 (nd - 1) l j))) rs (fun _ _ => 0)) as (r & E & H).
  - intros; lia.
  - intros m r M IH. unfold body, n_qpoint. fold rs nd. rewrite pow_div by lia.
    destruct (cube_ok fuel (nd - 1) 2 rs node INR (v_boundary d) (slab d a v m)) as (out & E & O); try lia.
    { intros i j I J. now apply ends_lagrange. }
    rewrite E. cbn [bind]. fold P. rewrite Nat.eqb_refl. eexists. split; [reflexivity|]. intros i j I J. cbv beta. destruct (Nat.eqb_spec i m) as [->|NE]; [|apply IH; lia].
    rewrite O by exact J. apply through_ext; [|reflexivity]. intros k K. unfold slab, variable, i_qpoint, nth_row. fold nd rs. cbn. f_equal. lia.
  - exists r. split; [exact E|exact H].
Qed.

Lemma edge_value a v j s n_sample eq : (a < nd)%nat -> (j < P)%nat ->
  (forall i j, (i < rs)%nat -> (j < P)%nat -> eq i j = through (nd - 1) rs node (fun k => variable d v (i_qpoint (nth_row nd rs a k) i)) (fun l => INR (digit 2 (nd - 1) l j))) ->
  matvec (interp_mat d n_sample) (fun i => eq i j) s = through nd rs node (variable d v) (edge_point nd n_sample a j s).
Proof.
  intros A J H. rewrite (through_row nd rs node _ _ a) by lia. rewrite through_sum. unfold matvec, interp_mat. cbn [cols entry]. fold rs node. apply rsum_ext. intros i I. f_equal.
  - rewrite interpolate_lagrange. unfold edge_point. rewrite Nat.eqb_refl. reflexivity.
  - rewrite H by assumption. apply through_ext; [reflexivity|]. intros l L. unfold edge_point, Spatial_Proofs.skip, drop. destruct (Nat.ltb_spec l a) as [X|X].
    + destruct (Nat.eqb_spec l a); [lia|]. destruct (Nat.ltb_spec l a); [reflexivity|lia].
    + destruct (Nat.eqb_spec (S l) a); [lia|]. destruct (Nat.ltb_spec (S l) a); [lia|]. now rewrite Nat.sub_succ, Nat.sub_0_r.
Qed.

Lemma edges_ok fuel n_sample : (nd <= fuel)%nat -> (1 <= n_sample)%nat ->
  exists out, edges fuel d n_sample = Ok (v_var d * n_sample * (P * nd), out)%nat /\
  forall a v j s, (a < nd)%nat -> (v < v_var d)%nat -> (j < P)%nat -> (s < n_sample)%nat ->
    out (((a * P + j) * v_var d + v) * n_sample + s)%nat = through nd rs node (variable d v) (edge_point nd n_sample a j s).
Proof.
  intros F NS. unfold edges. set (nr := (v_var d * n_sample)%nat).
  set (good := fun (result : nat -> R) a v => forall j s, (j < P)%nat -> (s < n_sample)%nat -> result (((a * P + j) * v_var d + v) * n_sample + s)%nat = through nd rs node (variable d v) (edge_point nd n_sample a j s)).
  set (body := fun (i_dim : nat) (result : nat -> R) => _). pose proof P_pos as PP.
  destruct (ofold_seq body (fun m r => forall a v, (a < m)%nat -> (v < v_var d)%nat -> good r a v) nd (fun _ => 0)) as (r & E & H).
  - intros; lia.
  - intros m r M IH. unfold body. set (body' := fun (i_var : nat) (result : nat -> R) => _).
    destruct (ofold_seq body' (fun k r => (forall a v, (a < m)%nat -> (v < v_var d)%nat -> good r a v) /\ forall v, (v < k)%nat -> good r m v) (v_var d) r) as (r' & E & H1 & H2).
    + split; [exact IH|intros; lia].
    + intros k t K (T1 & T2). unfold body'. destruct (edge_qpoints_ok fuel m k F M) as (eq & E & EQ). rewrite E. cbn [bind]. cbv zeta. rewrite per_dim, col0. eexists. split; [reflexivity|].
      assert (IX : forall a v j s, (v < v_var d)%nat -> (s < n_sample)%nat -> ((((a * P + j) * v_var d + v) * n_sample + s) mod nr = v * n_sample + s /\ (((a * P + j) * v_var d + v) * n_sample + s) / nr = a * P + j)%nat).
      { intros a v j s V S. assert (L : (v * n_sample + s < nr)%nat) by (unfold nr; nia). replace (((a * P + j) * v_var d + v) * n_sample + s)%nat with ((v * n_sample + s) + (a * P + j) * nr)%nat by (unfold nr; ring).
        rewrite Nat.mod_add, Nat.div_add by lia. rewrite Nat.mod_small, Nat.div_small by exact L. lia. }
      assert (G : forall a v j s, (v < v_var d)%nat -> (j < P)%nat -> (s < n_sample)%nat -> let r := (v * n_sample + s)%nat in let c := (a * P + j)%nat in
        (k * n_sample <=? r)%nat && (r <? k * n_sample + n_sample)%nat && (m * P <=? c)%nat && (c <? m * P + P)%nat = ((v =? k)%nat && (a =? m)%nat)).
      { intros a v j s V J S rr c. unfold rr, c. apply eq_true_iff_eq. rewrite !andb_true_iff, !Nat.leb_le, !Nat.ltb_lt, !Nat.eqb_eq. split.
        - intros (((A & B) & C) & D). split; nia.
        - intros (-> & ->). repeat split; nia. }
      split.
      * intros a v A V j s J S. cbv beta. destruct (IX a v j s V S) as (-> & ->). cbv zeta. rewrite (G a v j s V J S). destruct (Nat.eqb_spec a m) as [X|_]; [lia|]. rewrite andb_false_r. now apply T1.
      * intros v V j s J S. cbv beta. destruct (IX m v j s ltac:(lia) S) as (-> & ->). cbv zeta. rewrite (G m v j s ltac:(lia) J S). rewrite Nat.eqb_refl, andb_true_r. destruct (Nat.eqb_spec v k) as [->|NE]; [|apply T2; assumption || lia].
        replace (m * P + j - m * P)%nat with j by lia. replace (k * n_sample + s - k * n_sample)%nat with s by lia. now apply edge_value.
    + exists r'. split; [exact E|]. intros a v A V. destruct (Nat.eq_dec a m) as [->|NE]; [now apply H2|apply H1; assumption || lia].
  - fold nd. rewrite E. cbn [bind]. exists r. split; [reflexivity|]. intros a v j s A V J S. now apply H.
Qed.
End Edges.

(** ** one dimension: the recursion of [hypercube_matvec] on a vector of at most one entry does not end *)
Lemma hypercube_tiny m size v fuel : (2 <= cols m)%nat -> (1 <= rows m)%nat -> (size <= 1)%nat -> hypercube_matvec fuel m size v = NoFuel.
Proof.
  intros C R S. revert size v S. induction fuel as [|fuel IH]; intros size v S; [reflexivity|]. cbn [hypercube_matvec]. destruct (Nat.eqb_spec (cols m) 0); [lia|]. rewrite Nat.div_small by lia. cbn [Nat.eqb].
  assert (prod_size_loop (Datatypes.S size) m 1 size = Ok 1%nat) as ->. { cbn [prod_size_loop]. destruct (Nat.ltb_spec 1 size); [lia|reflexivity]. }
  cbn [bind]. destruct (Nat.eqb_spec (rows m) 0); [lia|]. assert (CO : forall n, collect (Datatypes.S n) (hypercube_matvec fuel m 0) (1 / rows m) 0 v = NoFuel).
  { intros k. induction k as [|k IHn]; [|cbn [collect] in *; now rewrite IHn]. cbn [collect bind]. rewrite IH by lia. reflexivity. }
  destruct (cols m) as [|c] eqn:EC; [lia|]. rewrite CO. reflexivity.
Qed.
Lemma one_dim d fuel n_sample i_dim is_positive : v_dim d = 1%nat -> (2 <= v_row_size d)%nat -> (1 <= v_var d)%nat -> (1 <= n_sample)%nat -> i_dim = 0%nat ->
  face fuel d i_dim is_positive n_sample = NoFuel /\ edges fuel d n_sample = NoFuel.
Proof.
  intros D1 RS V NS ->. split.
  - unfold face. destruct (v_var d) as [|n]; [lia|]. cbn [seq ofold]. unfold n_qpoint. rewrite D1, Nat.pow_1_r. unfold dimension_matvec. cbn [rows cols Nat.add]. rewrite Nat.pow_1_r.
    destruct (Nat.eqb_spec (v_row_size d) 0); [lia|]. cbn [bind]. rewrite Nat.mul_1_r, Nat.div_same by lia. rewrite hypercube_tiny; [reflexivity|exact RS|exact NS|lia].
  - unfold edges. rewrite D1. destruct (v_var d) as [|n]; [lia|]. cbn [seq ofold]. unfold edge_qpoints at 1. replace (seq 0 (v_row_size d)) with (0%nat :: seq 1 (v_row_size d - 1)) by (destruct (v_row_size d); [lia|]; cbn [seq]; now rewrite Nat.sub_succ, Nat.sub_0_r). cbn [ofold]. unfold n_qpoint. rewrite D1, Nat.pow_1_r.
    rewrite Nat.div_same by lia. rewrite hypercube_tiny; [reflexivity|exact RS|cbn; lia|lia].
Qed.

(** ** fetched values *)
Lemma fetch_ok nd rs n_var node boundary func : (0 < rs)%nat -> (forall q, (q < rs ^ nd)%nat -> length (func q) = n_var) ->
  exists d, fetch nd rs n_var node boundary func = Ok d /\ v_dim d = nd /\ v_row_size d = rs /\ v_var d = n_var /\ v_node d = node /\ v_boundary d = boundary /\
  forall v q, (v < n_var)%nat -> (q < rs ^ nd)%nat -> variable d v q = nth v (func q) 0.
Proof.
  intros RS L. unfold fetch. set (nq := (rs ^ nd)%nat) in *. set (body := fun (i_qpoint : nat) (vars : nat -> R) => _).
  destruct (ofold_seq body (fun m r => forall v q, (v < n_var)%nat -> (q < m)%nat -> r (v * nq + q)%nat = nth v (func q) 0) nq (fun _ => 0)) as (r & E & H).
  - intros; lia.
  - intros m r M IH. unfold body. set (body' := fun (i_var : nat) (vars : nat -> R) => _).
    destruct (ofold_seq body' (fun k t => (forall v q, (v < n_var)%nat -> (q < m)%nat -> t (v * nq + q)%nat = nth v (func q) 0) /\ forall v, (v < k)%nat -> t (v * nq + m)%nat = nth v (func m) 0) n_var r) as (r' & E & H1 & H2).
    + split; [exact IH|intros; lia].
    + intros k t K (T1 & T2). unfold body', aget. destruct (nth_error (func m) k) as [x|] eqn:EX; [|apply nth_error_None in EX; rewrite L in EX; lia]. cbn [of_option_ub bind]. eexists. split; [reflexivity|].
      assert (X : nth k (func m) 0 = x) by (now apply nth_error_nth). split.
      * intros v q V Q. cbv beta. destruct (Nat.eqb_spec (v * nq + q) (nq * k + m)) as [Y|_]; [|now apply T1]. exfalso. assert (v = k) by nia. subst v. lia.
      * intros v V. cbv beta. destruct (Nat.eqb_spec (v * nq + m) (nq * k + m)) as [Y|Y]; [assert (v = k) by nia; now subst v|]. apply T2. assert (v <> k) by (intros ->; apply Y; lia). lia.
    + exists r'. split; [exact E|]. intros v q V Q. destruct (Nat.eq_dec q m) as [->|NE]; [now apply H2|apply H1; assumption || lia].
  - rewrite E. cbn [bind]. eexists. repeat (split; [reflexivity|]). intros v q V Q. unfold variable, n_qpoint. cbn [v_vars v_dim v_row_size]. now apply H.
Qed.

(** ** bounds *)
Definition is_least (low : bool) (n : nat) (v : nat -> R) (x : R) : Prop := (exists i, (i < n)%nat /\ v i = x) /\ forall i, (i < n)%nat -> if low then x <= v i else v i <= x.
Lemma coeff_min n v : (0 < n)%nat -> exists x, coeff Rmin n v = Ok x /\ is_least true n v x.
Proof.
  intros N. destruct n as [|m]; [lia|]. clear N. unfold coeff. eexists. split; [reflexivity|]. induction m as [|m (IH1 & IH2)].
  - split; [exists 0%nat; split; [lia|reflexivity]|]. intros i I. replace i with 0%nat by lia. cbn. lra.
  - rewrite seq_S, fold_left_app. cbn [fold_left Nat.add]. set (y := fold_left _ _ _) in *. split.
    + destruct (Rle_dec y (v (S m))) as [H|H]; [rewrite Rmin_left by exact H; destruct IH1 as (i & I & E); exists i; split; [lia|exact E]|]. rewrite Rmin_right by lra. exists (S m). split; [lia|reflexivity].
    + intros i I. destruct (Nat.eq_dec i (S m)) as [->|NE]; [apply Rmin_r|]. eapply Rle_trans; [apply Rmin_l|]. apply IH2. lia.
Qed.
Lemma coeff_max n v : (0 < n)%nat -> exists x, coeff Rmax n v = Ok x /\ is_least false n v x.
Proof.
  intros N. destruct n as [|m]; [lia|]. clear N. unfold coeff. eexists. split; [reflexivity|]. induction m as [|m (IH1 & IH2)].
  - split; [exists 0%nat; split; [lia|reflexivity]|]. intros i I. replace i with 0%nat by lia. cbn. lra.
  - rewrite seq_S, fold_left_app. cbn [fold_left Nat.add]. set (y := fold_left _ _ _) in *. split.
    + destruct (Rle_dec y (v (S m))) as [H|H]; [rewrite Rmax_right by exact H; exists (S m); split; [lia|reflexivity]|]. rewrite Rmax_left by lra. destruct IH1 as (i & I & E); exists i; split; [lia|exact E].
    + intros i I. destruct (Nat.eq_dec i (S m)) as [->|NE]; [apply Rmax_r|]. eapply Rle_trans; [|apply Rmax_l]. apply IH2. lia.
Qed.
Section Bounds.
Variables (fuel : nat) (big : R) (nd n_var n_sample : nat).
Hypotheses (ND : (1 <= nd <= fuel)%nat) (NS : (1 <= n_sample)%nat).
Definition value (e : vis) (v i : nat) : R := through (v_dim e) (v_row_size e) (v_node e) (variable e v) (block_point n_sample (v_dim e) i).
Definition taken (elems : list vis) (v : nat) (x : R) : Prop := exists e i, In e elems /\ (i < n_sample ^ nd)%nat /\ x = value e v i.
Lemma bounds_ok elems : (forall e, In e elems -> v_dim e = nd /\ v_var e = n_var /\ (2 <= v_row_size e)%nat) ->
  (forall v x, (v < n_var)%nat -> taken elems v x -> - big <= x <= big) ->
  exists b, bounds_field fuel big elems nd n_var n_sample = Ok b /\
  forall v, (v < n_var)%nat -> (elems = [] /\ b v = (big, - big)) \/ (taken elems v (fst (b v)) /\ taken elems v (snd (b v)) /\ forall x, taken elems v x -> fst (b v) <= x <= snd (b v)).
Proof.
  intros EL BI. unfold bounds_field. set (nb := (n_sample ^ nd)%nat). assert (NB : (0 < nb)%nat) by (apply pow_pos; lia). set (body := fun (elem : vis) (bounds : nat -> R * R) => _).
  set (inv := fun (done : list vis) (b : nat -> R * R) => forall v, (v < n_var)%nat -> (done = [] /\ b v = (big, - big)) \/ (taken done v (fst (b v)) /\ taken done v (snd (b v)) /\ forall x, taken done v x -> fst (b v) <= x <= snd (b v))).
  destruct (ofold_inv body inv elems (fun _ => (big, - big))) as (b & E & H).
  - intros v V. left. split; reflexivity.
  - intros done e rest b EQ IH. assert (IN : In e elems) by (rewrite EQ, in_app_iff; right; now left). destruct (EL e IN) as (D & N & RS).
    unfold body. destruct (interior_ok e ltac:(lia) RS fuel n_sample ltac:(lia) NS) as (out & EO & O). rewrite EO. cbn [bind]. rewrite D, N in O. fold nb in O.
    set (body' := fun (i_var : nat) (bounds : nat -> R * R) => _).
    assert (VAL : forall v i, (v < n_var)%nat -> (i < nb)%nat -> out (v * nb + i)%nat = value e v i). { intros v i V I. rewrite O by assumption. unfold value. rewrite D. reflexivity. }
    assert (SUB : forall v x, taken done v x -> taken (done ++ [e]) v x). { intros v x (e' & i & I1 & I2 & X). exists e', i. split; [apply in_app_iff; now left|now split]. }
    assert (BI' : forall v i, (v < n_var)%nat -> (i < nb)%nat -> - big <= value e v i <= big). { intros v i V I. apply (BI v _ V). exists e, i. split; [exact IN|split; [exact I|reflexivity]]. }
    destruct (ofold_seq body' (fun k t => (forall v, (k <= v < n_var)%nat -> t v = b v) /\ forall v, (v < k)%nat -> taken (done ++ [e]) v (fst (t v)) /\ taken (done ++ [e]) v (snd (t v)) /\ forall x, taken (done ++ [e]) v x -> fst (t v) <= x <= snd (t v)) n_var b) as (b' & E & _ & H2).
    + split; [reflexivity|intros; lia].
    + intros k t K (T1 & T2). unfold body'. destruct (coeff_min nb (fun i => out (k * nb + i)%nat) NB) as (lo & EL' & (il & IL & XL) & LL). destruct (coeff_max nb (fun i => out (k * nb + i)%nat) NB) as (hi & EH' & (ih & IH' & XH) & HH).
      rewrite EL', EH'. cbn [bind]. eexists. split; [reflexivity|]. split.
      * intros v V. cbv beta. destruct (Nat.eqb_spec v k) as [->|_]; [lia|]. apply T1. lia.
      * intros v V. cbv beta. destruct (Nat.eqb_spec v k) as [->|NE]; [|apply T2; lia]. cbn [fst snd]. rewrite (T1 k) by lia.
        assert (TL : taken (done ++ [e]) k lo). { exists e, il. split; [apply in_app_iff; right; now left|split; [exact IL|]]. rewrite <- VAL by assumption. now symmetry. }
        assert (TH : taken (done ++ [e]) k hi). { exists e, ih. split; [apply in_app_iff; right; now left|split; [exact IH'|]]. rewrite <- VAL by assumption. now symmetry. }
        assert (OWN : forall i, (i < nb)%nat -> lo <= value e k i <= hi). { intros i I. rewrite <- VAL by assumption. split; [apply (LL i I)|apply (HH i I)]. }
        assert (BL : lo <= big). { rewrite <- XL, VAL by assumption. apply BI'; assumption. }
        assert (BH : - big <= hi). { rewrite <- XH, VAL by assumption. apply BI'; assumption. }
        destruct (IH k K) as [(-> & ->)|(I1 & I2 & I3)]; cbn [fst snd].
        -- rewrite Rmin_left, Rmax_left by assumption. split; [exact TL|]. split; [exact TH|]. intros x (e' & i & [<-|[]] & I & ->). now apply OWN.
        -- split; [|split].
           ++ destruct (Rle_dec lo (fst (b k))); [rewrite Rmin_left by assumption; exact TL|rewrite Rmin_right by lra; now apply SUB].
           ++ destruct (Rle_dec hi (snd (b k))); [rewrite Rmax_right by assumption; now apply SUB|rewrite Rmax_left by lra; exact TH].
           ++ intros x (e' & i & I & J & X). apply in_app_iff in I. destruct I as [I|[<-|[]]].
              ** destruct (I3 x) as (A & B); [exists e', i; now repeat split|]. split; [eapply Rle_trans; [apply Rmin_r|exact A]|eapply Rle_trans; [exact B|apply Rmax_r]].
              ** subst x. destruct (OWN i J) as (A & B). split; [eapply Rle_trans; [apply Rmin_l|exact A]|eapply Rle_trans; [exact B|apply Rmax_l]].
    + exists b'. split; [exact E|]. intros v V. right. apply H2. exact V.
  - exists b. split; [exact E|exact H].
Qed.
End Bounds.
