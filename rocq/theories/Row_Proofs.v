(** Proofs about rows of quadrature points. *)
From Coq Require Import Reals List Arith Lia Permutation.
From Verif Require Import Outcome ListUtil Loop Tensor_Spec Tensor_Proofs Row_Model Row_Spec.
Import ListNotations.

Lemma pow_pos' b n : 0 < b -> 0 < b ^ n.
Proof. intros H. induction n as [|n IH]; cbn; nia. Qed.

(** the [f]-th row *)
Definition nth_row (n rs id f : nat) : row_index :=
  mk_row_index (f / rs ^ (n - 1 - id)) (f mod rs ^ (n - 1 - id)) f n rs id (rs ^ n) (rs ^ n / rs) (rs ^ (n - 1 - id)).

Lemma row_next_nth n rs id f : 0 < rs -> row_next (nth_row n rs id f) = nth_row n rs id (f + 1).
Proof.
  intros Hrs. unfold row_next, nth_row. cbn [i_fq i_inner i_outer ri_stride ri_n_dim ri_row_size ri_i_dim ri_n_qpoint ri_n_fqpoint].
  set (s := rs ^ (n - 1 - id)). assert (Hs : 0 < s) by now apply pow_pos'.
  pose proof (Nat.div_mod f s ltac:(lia)) as E. pose proof (Nat.mod_upper_bound f s ltac:(lia)) as Hm.
  destruct (Nat.eqb_spec (f mod s + 1) s) as [Hc|Hc].
  - assert (E1 : f + 1 = s * (f / s + 1) + 0) by nia.
    assert (Ed : (f + 1) / s = f / s + 1) by (symmetry; apply (Nat.div_unique (f + 1) s (f / s + 1) 0); lia).
    assert (Em : (f + 1) mod s = 0) by (symmetry; apply (Nat.mod_unique (f + 1) s (f / s + 1) 0); lia).
    now rewrite Ed, Em.
  - assert (Ed : (f + 1) / s = f / s) by (symmetry; apply (Nat.div_unique (f + 1) s (f / s) (f mod s + 1)); lia).
    assert (Em : (f + 1) mod s = f mod s + 1) by (symmetry; apply (Nat.mod_unique (f + 1) s (f / s) (f mod s + 1)); lia).
    now rewrite Ed, Em.
Qed.

Lemma pow_div rs n : 0 < rs -> 0 < n -> rs ^ n / rs = rs ^ (n - 1).
Proof.
  intros Hrs Hn. destruct n as [|n]; [lia|]. cbn [Nat.pow]. rewrite Nat.mul_comm, Nat.div_mul by lia.
  now rewrite Nat.sub_1_r.
Qed.

Lemma row_loop_S m r : row_loop (S m) r = if row_valid r then let! l := row_loop m (row_next r) in Ok (r :: l) else Ok [].
Proof. reflexivity. Qed.

Lemma row_loop_nth n rs id : 0 < rs -> 0 < n -> forall m f, f + m = rs ^ (n - 1) ->
  row_loop (S m) (nth_row n rs id f) = Ok (map (nth_row n rs id) (seq f m)).
Proof.
  intros Hrs Hn. induction m as [|m IH]; intros f E; rewrite row_loop_S; unfold row_valid; cbn [i_fq ri_n_fqpoint nth_row].
  - rewrite pow_div by auto. destruct (Nat.ltb_spec f (rs ^ (n - 1))); [lia|reflexivity].
  - rewrite pow_div by auto. destruct (Nat.ltb_spec f (rs ^ (n - 1))); [|lia].
    rewrite row_next_nth by auto. rewrite IH by lia. cbn [bind seq map]. now rewrite Nat.add_1_r.
Qed.

Lemma row_begin_nth n rs id : row_begin n rs id = nth_row n rs id 0.
Proof.
  unfold row_begin, nth_row. destruct rs as [|rs].
  - f_equal. destruct (n - 1 - id); reflexivity. destruct (n - 1 - id); reflexivity.
  - pose proof (pow_pos' (S rs) (n - 1 - id) ltac:(lia)). rewrite Nat.div_0_l, Nat.mod_0_l by lia. reflexivity.
Qed.

(** The face point and the node of a quadrature point. *)
Definition face_of (s rs q : nat) : nat := q / (s * rs) * s + q mod s.

Lemma qpoint_split s rs f j : 0 < s -> 0 < rs -> j < rs ->
  let q := f / s * s * rs + f mod s + j * s in
  (q / s) mod rs = j /\ q / (s * rs) = f / s /\ q mod s = f mod s /\ face_of s rs q = f.
Proof.
  intros Hs Hrs Hj q. pose proof (Nat.mod_upper_bound f s ltac:(lia)) as Hm.
  assert (E1 : q / s = f / s * rs + j).
  { symmetry. apply (Nat.div_unique q s _ (f mod s)); auto. unfold q. nia. }
  assert (E2 : q mod s = f mod s).
  { symmetry. apply (Nat.mod_unique q s (f / s * rs + j) (f mod s)); auto. unfold q. nia. }
  assert (E3 : q / (s * rs) = f / s).
  { rewrite <- Nat.div_div by lia. rewrite E1. symmetry. apply (Nat.div_unique _ rs _ j); lia. }
  split; [|split; [|split]]; auto.
  - rewrite E1. symmetry. apply (Nat.mod_unique _ rs (f / s) j); lia.
  - unfold face_of. rewrite E3, E2. pose proof (Nat.div_mod f s ltac:(lia)). lia.
Qed.

Lemma qpoint_lt n rs id f j : 0 < rs -> id < n -> f < rs ^ (n - 1) -> j < rs -> i_qpoint (nth_row n rs id f) j < rs ^ n.
Proof.
  intros Hrs Hid Hf Hj. unfold i_qpoint, nth_row. cbn [i_outer i_inner ri_stride ri_row_size].
  set (s := rs ^ (n - 1 - id)). assert (Hs : 0 < s) by now apply pow_pos'.
  assert (E : rs ^ n = rs ^ id * (s * rs)).
  { unfold s. rewrite (Nat.mul_comm _ rs), <- Nat.pow_succ_r', <- Nat.pow_add_r. f_equal. lia. }
  assert (E' : rs ^ (n - 1) = rs ^ id * s).
  { unfold s. rewrite <- Nat.pow_add_r. f_equal. lia. }
  rewrite E' in Hf. rewrite E. pose proof (Nat.mod_upper_bound f s ltac:(lia)) as Hm.
  assert (Hd : f / s < rs ^ id). { apply Nat.div_lt_upper_bound; lia. }
  assert (f mod s + j * s < s * rs) by nia. nia.
Qed.

Lemma digit_div b m q t : 0 < b -> (q / b ^ t / b ^ m) mod b = (q / b ^ (t + m)) mod b.
Proof.
  intros Hb. rewrite Nat.pow_add_r, Nat.div_div; auto; pose proof (pow_pos' b t Hb); pose proof (pow_pos' b m Hb); lia.
Qed.

(** low digits only depend on the remainder *)
Lemma digit_mod b t k q : 0 < b -> t < k -> (q mod b ^ k / b ^ t) mod b = (q / b ^ t) mod b.
Proof.
  intros Hb Ht. replace k with (t + (1 + (k - t - 1))) by lia. rewrite !Nat.pow_add_r, Nat.pow_1_r.
  pose proof (pow_pos' b t Hb). pose proof (pow_pos' b (k - t - 1) Hb). set (u := b ^ (k - t - 1)) in *. set (w := b ^ t) in *.
  rewrite Nat.mod_mul_r by nia. rewrite (Nat.mul_comm w), Nat.div_add by lia.
  rewrite (Nat.div_small (q mod w)) by (apply Nat.mod_upper_bound; lia). cbn.
  rewrite Nat.mod_mul_r by nia. rewrite (Nat.mul_comm b), Nat.mod_add by lia. apply Nat.mod_mod. lia.
Qed.

Lemma row_in_row n rs id f j : 0 < rs -> id < n -> f < rs ^ (n - 1) -> j < rs ->
  in_row n rs id f j (i_qpoint (nth_row n rs id f) j) /\ i_node (nth_row n rs id f) (i_qpoint (nth_row n rs id f) j) = j.
Proof.
  intros Hrs Hid Hf Hj. pose proof (qpoint_lt n rs id f j Hrs Hid Hf Hj) as Hlt.
  set (s := rs ^ (n - 1 - id)). assert (Hs : 0 < s) by now apply pow_pos'.
  destruct (qpoint_split s rs f j Hs Hrs Hj) as (A & B & C & _).
  change (i_qpoint (nth_row n rs id f) j) with (f / s * s * rs + f mod s + j * s) in *.
  set (q := f / s * s * rs + f mod s + j * s) in *. split; [|exact A].
  split; [exact Hlt|split; [exact A|]]. intros d Hd Hne. unfold digit, drop.
  destruct (Nat.ltb_spec d id) as [Hlt'|Hge].
  - set (m := id - 1 - d).
    replace (n - 1 - d) with ((n - 1 - id + 1) + m) by (unfold m; lia).
    replace (n - 1 - 1 - d) with ((n - 1 - id) + m) by (unfold m; lia).
    rewrite <- !digit_div by auto. rewrite Nat.pow_add_r, Nat.pow_1_r. fold s. now rewrite B.
  - replace (n - 1 - 1 - (d - 1)) with (n - 1 - d) by lia.
    rewrite <- (digit_mod rs (n - 1 - d) (n - 1 - id) q) by lia. rewrite <- (digit_mod rs (n - 1 - d) (n - 1 - id) f) by lia.
    fold s. now rewrite C.
Qed.

Lemma in_flat_qpoints n rs id q : 0 < rs -> id < n -> q < rs ^ n ->
  exists f j, f < rs ^ (n - 1) /\ j < rs /\ i_qpoint (nth_row n rs id f) j = q.
Proof.
  intros Hrs Hid Hq. set (s := rs ^ (n - 1 - id)). assert (Hs : 0 < s) by now apply pow_pos'.
  assert (E : rs ^ n = rs ^ id * (s * rs)).
  { unfold s. rewrite (Nat.mul_comm _ rs), <- Nat.pow_succ_r', <- Nat.pow_add_r. f_equal. lia. }
  assert (E' : rs ^ (n - 1) = rs ^ id * s).
  { unfold s. rewrite <- Nat.pow_add_r. f_equal. lia. }
  pose proof (Nat.mod_upper_bound q s ltac:(lia)) as Hm.
  assert (Hd : q / (s * rs) < rs ^ id). { apply Nat.div_lt_upper_bound; nia. }
  exists (face_of s rs q), ((q / s) mod rs). split; [|split].
  - unfold face_of. rewrite E'. nia.
  - apply Nat.mod_upper_bound. lia.
  - unfold i_qpoint, nth_row. cbn [i_outer i_inner ri_stride ri_row_size]. fold s. unfold face_of.
    rewrite Nat.div_add_l, (Nat.div_small (q mod s)), Nat.add_0_r by lia.
    rewrite (Nat.add_comm _ (q mod s)), Nat.mod_add, Nat.mod_mod by lia.
    pose proof (Nat.div_mod q s ltac:(lia)) as E1. pose proof (Nat.div_mod (q / s) rs ltac:(lia)) as E2.
    rewrite Nat.div_div in E2 by lia. nia.
Qed.

Lemma qpoint_inj n rs id f j f' j' : 0 < rs -> id < n -> j < rs -> j' < rs ->
  i_qpoint (nth_row n rs id f) j = i_qpoint (nth_row n rs id f') j' -> f = f' /\ j = j'.
Proof.
  intros Hrs Hid Hj Hj' E. set (s := rs ^ (n - 1 - id)). assert (Hs : 0 < s) by now apply pow_pos'.
  destruct (qpoint_split s rs f j Hs Hrs Hj) as (A & _ & _ & B).
  destruct (qpoint_split s rs f' j' Hs Hrs Hj') as (A' & _ & _ & B').
  unfold i_qpoint, nth_row in E. cbn [i_outer i_inner ri_stride ri_row_size] in E. fold s in E.
  rewrite E in A, B. split; congruence.
Qed.

Definition qpoints_visited (rs : nat) (l : list row_index) : list nat :=
  flat_map (fun ind => map (i_qpoint ind) (seq 0 rs)) l.

Lemma flat_map_prod {A B C} (f : A -> B -> C) l m : flat_map (fun x => map (f x) m) l = map (fun p => f (fst p) (snd p)) (list_prod l m).
Proof.
  induction l as [|x l IH]; cbn; [reflexivity|]. rewrite map_app, map_map, IH. reflexivity.
Qed.

Lemma flat_map_map {A B C} (g : A -> B) (f : B -> list C) l : flat_map f (map g l) = flat_map (fun x => f (g x)) l.
Proof. induction l as [|x l IH]; cbn; [reflexivity|]. now rewrite IH. Qed.

Lemma rows_partition n rs id : 0 < rs -> id < n -> exists l,
  row_loop (S (rs ^ (n - 1))) (row_begin n rs id) = Ok l
  /\ length l = rs ^ (n - 1)
  /\ (forall f, f < rs ^ (n - 1) -> exists ind, nth_error l f = Some ind /\ i_face_qpoint ind = f
        /\ forall j, j < rs -> in_row n rs id f j (i_qpoint ind j) /\ i_node ind (i_qpoint ind j) = j)
  /\ Permutation (qpoints_visited rs l) (seq 0 (rs ^ n)).
Proof.
  intros Hrs Hid. exists (map (nth_row n rs id) (seq 0 (rs ^ (n - 1)))). split; [|split; [|split]].
  - rewrite row_begin_nth. apply row_loop_nth; lia.
  - now rewrite map_length, seq_length.
  - intros f Hf. exists (nth_row n rs id f). split; [|split].
    + rewrite nth_error_map. rewrite (nth_error_nth' _ 0) by (now rewrite seq_length). cbn. now rewrite seq_nth.
    + reflexivity.
    + intros j Hj. now apply row_in_row.
  - unfold qpoints_visited. rewrite flat_map_map, (flat_map_prod (fun f => i_qpoint (nth_row n rs id f))).
    apply NoDup_Permutation.
    + apply NoDup_map_inj.
      * intros [f j] [f' j'] H H' E. apply in_prod_iff in H as [H1 H2]. apply in_prod_iff in H' as [H1' H2'].
        apply in_seq in H2, H2'. cbn [fst snd] in E. destruct (qpoint_inj n rs id f j f' j') as [-> ->]; auto; lia.
      * apply NoDup_list_prod; apply seq_NoDup.
    + apply seq_NoDup.
    + intros q. rewrite in_seq, in_map_iff. split.
      * intros ([f j] & <- & H). apply in_prod_iff in H as [H1 H2]. apply in_seq in H1, H2. cbn [fst snd].
        split; [lia|]. apply qpoint_lt; lia.
      * intros [_ Hq]. destruct (in_flat_qpoints n rs id q) as (f & j & Hf & Hj & E); auto.
        exists (f, j). split; [exact E|]. apply in_prod_iff. split; apply in_seq; lia.
Qed.

(** * Reading and writing rows *)

(** the array indices of a row of all variables, in the order of the loops *)
Definition row_items (n_var rs : nat) : list (nat * nat) := list_prod (seq 0 n_var) (seq 0 rs).
Definition row_idx (n rs id f : nat) (p : nat * nat) : nat := fst p * rs ^ n + i_qpoint (nth_row n rs id f) (snd p).

Lemma row_idx_lt n rs id f n_var p : 0 < rs -> id < n -> f < rs ^ (n - 1) -> In p (row_items n_var rs) ->
  row_idx n rs id f p < n_var * rs ^ n.
Proof.
  intros Hrs Hid Hf Hp. destruct p as [v j]. apply in_prod_iff in Hp as [Hv Hj]. apply in_seq in Hv, Hj.
  unfold row_idx. cbn [fst snd]. pose proof (qpoint_lt n rs id f j Hrs Hid Hf ltac:(lia)). nia.
Qed.

Lemma row_idx_inj n rs id f n_var : 0 < rs -> id < n -> f < rs ^ (n - 1) -> forall p p', In p (row_items n_var rs) -> In p' (row_items n_var rs) ->
  row_idx n rs id f p = row_idx n rs id f p' -> p = p'.
Proof.
  intros Hrs Hid Hf [v j] [v' j'] Hp Hp' E. apply in_prod_iff in Hp as [_ Hj]. apply in_prod_iff in Hp' as [_ Hj'].
  apply in_seq in Hj, Hj'. unfold row_idx in E. cbn [fst snd] in E.
  pose proof (qpoint_lt n rs id f j Hrs Hid Hf ltac:(lia)). pose proof (qpoint_lt n rs id f j' Hrs Hid Hf ltac:(lia)).
  assert (v = v') by nia. subst v'. f_equal. apply (qpoint_inj n rs id f j f j'); auto; lia.
Qed.

Lemma write_row_effect n rs id f n_var w data coef : 0 < rs -> id < n -> f < rs ^ (n - 1) -> length data = n_var * rs ^ n ->
  exists data', write_row n_var rs w data (nth_row n rs id f) coef = Ok data' /\ length data' = length data
    /\ (forall v j, v < n_var -> j < rs ->
         nth (row_idx n rs id f (v, j)) data' 0%R = (coef * nth (row_idx n rs id f (v, j)) data 0 + w j v)%R)
    /\ (forall k, (forall v j, v < n_var -> j < rs -> k <> row_idx n rs id f (v, j)) -> nth k data' 0%R = nth k data 0%R).
Proof.
  intros Hrs Hid Hf Hlen. unfold write_row. rewrite ofold_nest.
  destruct (ofold_write (row_idx n rs id f) (fun p d => coef * d + w (snd p) (fst p))%R 0%R (row_items n_var rs) data)
    as (data' & E & Hl & Hin & Hout).
  - apply NoDup_map_inj.
    + now apply row_idx_inj.
    + apply NoDup_list_prod; apply seq_NoDup.
  - intros p Hp. rewrite Hlen. now apply row_idx_lt.
  - exists data'. split; [exact E|]. split; [exact Hl|]. split.
    + intros v j Hv Hj. apply (Hin (v, j)). apply in_prod_iff. split; apply in_seq; lia.
    + intros k Hk. apply Hout. intros Hi. apply in_map_iff in Hi as ([v j] & Ek & Hp). apply in_prod_iff in Hp as [Hv Hj].
      apply in_seq in Hv, Hj. apply (Hk v j); lia.
Qed.

(** a loop that reads into a matrix *)
Lemma ofold_mset {X} (get : X -> outcome R) (val : X -> R) (ri rj : X -> nat) (L : list X) (m : mat) :
  (forall x, In x L -> get x = Ok (val x)) ->
  (forall x y, In x L -> In y L -> ri x = ri y -> rj x = rj y -> val x = val y) ->
  exists m', ofold (fun x r => let! v := get x in Ok (mset r (ri x) (rj x) v)) L m = Ok m'
    /\ (forall x, In x L -> m' (ri x) (rj x) = val x)
    /\ (forall a b, (forall x, In x L -> ~ (a = ri x /\ b = rj x)) -> m' a b = m a b).
Proof.
  revert m; induction L as [|x L IH]; intros m Hg Hv; cbn [ofold].
  - exists m. repeat split; auto. intros x [].
  - rewrite Hg by (now left). cbn [bind]. destruct (IH (mset m (ri x) (rj x) (val x))) as (m' & E & Hin & Hout).
    + intros y Hy. apply Hg. now right.
    + intros y z Hy Hz. apply Hv; now right.
    + exists m'. split; [exact E|]. split.
      * intros y [<-|Hy]; [|now apply Hin].
        destruct (List.Exists_dec (fun z => ri x = ri z /\ rj x = rj z) L) as [He|Hne].
        { intros z. destruct (Nat.eq_dec (ri x) (ri z)), (Nat.eq_dec (rj x) (rj z)); try (now left); right; intuition lia. }
        -- apply Exists_exists in He as (z & Hz & E1 & E2). rewrite E1, E2, Hin by auto. symmetry. apply Hv; auto; [now left|now right].
        -- rewrite Hout. { unfold mset. now rewrite !Nat.eqb_refl. }
           intros z Hz Heq. apply Hne. apply Exists_exists. eauto.
      * intros a b Hab. rewrite Hout by (intros z Hz; apply Hab; now right).
        unfold mset. destruct (Nat.eqb_spec a (ri x)), (Nat.eqb_spec b (rj x)); try reflexivity.
        exfalso. apply (Hab x); [now left|auto].
Qed.

Lemma read_row_value n rs id f n_var data r0 : 0 < rs -> id < n -> f < rs ^ (n - 1) -> length data = n_var * rs ^ n ->
  exists r, read_row n_var rs data (nth_row n rs id f) r0 = Ok r
    /\ forall v j, v < n_var -> j < rs -> r j v = nth (row_idx n rs id f (v, j)) data 0%R.
Proof.
  intros Hrs Hid Hf Hlen. unfold read_row. rewrite ofold_nest.
  destruct (ofold_mset (fun p => aget data (row_idx n rs id f p)) (fun p => nth (row_idx n rs id f p) data 0%R) snd fst (row_items n_var rs) r0)
    as (r & E & Hin & _).
  - intros p Hp. apply aget_ok. rewrite Hlen. now apply row_idx_lt.
  - intros [v j] [v' j'] _ _ E1 E2. cbn [fst snd] in *. now subst.
  - exists r. split; [exact E|]. intros v j Hv Hj. apply (Hin (v, j)). apply in_prod_iff. split; apply in_seq; lia.
Qed.

Lemma read_write_back n rs id f n_var data r0 : 0 < rs -> id < n -> f < rs ^ (n - 1) -> length data = n_var * rs ^ n ->
  exists r, read_row n_var rs data (nth_row n rs id f) r0 = Ok r /\ write_row n_var rs r data (nth_row n rs id f) 0 = Ok data.
Proof.
  intros Hrs Hid Hf Hlen. destruct (read_row_value n rs id f n_var data r0 Hrs Hid Hf Hlen) as (r & E & Hr).
  exists r. split; [exact E|]. destruct (write_row_effect n rs id f n_var r data 0 Hrs Hid Hf Hlen) as (data' & E' & Hl & Hin & Hout).
  rewrite E'. f_equal. apply (nth_ext _ _ 0%R 0%R); [auto|]. intros k _.
  destruct (in_dec Nat.eq_dec k (map (row_idx n rs id f) (row_items n_var rs))) as [Hi|Hni].
  - apply in_map_iff in Hi as ([v j] & <- & Hp). apply in_prod_iff in Hp as [Hv Hj]. apply in_seq in Hv, Hj.
    rewrite Hin by lia. rewrite Hr by lia. now rewrite Rmult_0_l, Rplus_0_l.
  - apply Hout. intros v j Hv Hj ->. apply Hni. apply in_map. apply in_prod_iff. split; apply in_seq; lia.
Qed.

(** * Faces *)

Lemma fq_idx_lt n rs n_var v f : 0 < rs -> 0 < n -> f < rs ^ (n - 1) -> v < n_var -> v * rs ^ (n - 1) + f < n_var * rs ^ (n - 1).
Proof. intros. nia. Qed.

Lemma read_bound_value n rs id f n_var faces b0 : 0 < rs -> id < n -> f < rs ^ (n - 1) ->
  (forall i, i < 2 * n -> length (faces i) = n_var * rs ^ (n - 1)) ->
  exists b, read_bound n_var faces (nth_row n rs id f) b0 = Ok b
    /\ forall v p, v < n_var -> p < 2 -> b p v = nth (v * rs ^ (n - 1) + f) (faces (2 * id + p)) 0%R.
Proof.
  intros Hrs Hid Hf Hlen. unfold read_bound. rewrite ofold_nest.
  destruct (ofold_mset (fun p => aget (faces (id * 2 + snd p)) (fst p * (rs ^ n / rs) + f))
    (fun p => nth (fst p * rs ^ (n - 1) + f) (faces (2 * id + snd p)) 0%R) snd fst (list_prod (seq 0 n_var) [0; 1]) b0) as (b & E & Hin & _).
  - intros [v p] Hp. apply in_prod_iff in Hp as [Hv Hp]. apply in_seq in Hv. cbn [fst snd]. rewrite pow_div by lia.
    assert (p < 2) by (destruct Hp as [<-|[<-|[]]]; lia). rewrite (Nat.mul_comm id 2). apply aget_ok.
    rewrite Hlen by lia. apply fq_idx_lt; lia.
  - intros [v p] [v' p'] _ _ E1 E2. cbn [fst snd] in *. now subst.
  - exists b. split; [exact E|]. intros v p Hv Hp. apply (Hin (v, p)). apply in_prod_iff. split; [apply in_seq; lia|].
    cbn. lia.
Qed.

Lemma write_bound_effect n rs id f n_var b faces : 0 < rs -> id < n -> f < rs ^ (n - 1) ->
  (forall i, i < 2 * n -> length (faces i) = n_var * rs ^ (n - 1)) ->
  exists faces', write_bound n_var b faces (nth_row n rs id f) = Ok faces'
    /\ (forall i, length (faces' i) = length (faces i))
    /\ (forall v p, v < n_var -> p < 2 -> nth (v * rs ^ (n - 1) + f) (faces' (2 * id + p)) 0%R = b p v)
    /\ (forall i k, (i / 2 <> id \/ forall v, v < n_var -> k <> v * rs ^ (n - 1) + f) -> nth k (faces' i) 0%R = nth k (faces i) 0%R).
Proof.
  intros Hrs Hid Hf Hlen. unfold write_bound. rewrite ofold_nest.
  set (L := list_prod (seq 0 n_var) [0; 1]). set (nf := rs ^ (n - 1)).
  assert (Hnf : 0 < nf) by now apply pow_pos'.
  destruct (ofold_inv (fun p (fs : nat -> list R) => let! l := aset (fs (ri_i_dim (nth_row n rs id f) * 2 + snd p))
      (fst p * ri_n_fqpoint (nth_row n rs id f) + i_face_qpoint (nth_row n rs id f)) (b (snd p) (fst p)) in
      Ok (fset fs (ri_i_dim (nth_row n rs id f) * 2 + snd p) l))
    (fun done fs => (forall i, length (fs i) = length (faces i))
       /\ (forall v p, In (v, p) done -> nth (v * nf + f) (fs (2 * id + p)) 0%R = b p v)
       /\ (forall i k, (forall v p, In (v, p) done -> i = 2 * id + p -> k <> v * nf + f) -> nth k (fs i) 0%R = nth k (faces i) 0%R)) L faces)
    as (faces' & E & Hl & Hin & Hout).
  - repeat split; auto. intros v p [].
  - intros done [v p] rest fs EL (Hl & Hin & Hout). cbn [fst snd ri_i_dim ri_n_fqpoint nth_row i_face_qpoint i_fq].
    rewrite pow_div by lia. fold nf. rewrite (Nat.mul_comm id 2).
    assert (Hp : In (v, p) L) by (rewrite EL; apply in_elt). apply in_prod_iff in Hp as [Hv Hp]. apply in_seq in Hv.
    assert (Hp2 : p < 2) by (destruct Hp as [<-|[<-|[]]]; lia).
    assert (Hlt : v * nf + f < length (fs (2 * id + p))). { rewrite Hl, Hlen by lia. apply fq_idx_lt; lia. }
    rewrite aset_ok by auto. cbn [bind]. eexists. split; [reflexivity|]. split; [|split].
    + intros i. unfold fset. destruct (Nat.eqb_spec i (2 * id + p)) as [->|_]; auto. rewrite set_nth_length. apply Hl.
    + intros v' p' Hi. apply in_app_iff in Hi as [Hi|[[= <- <-]|[]]].
      * unfold fset. destruct (Nat.eqb_spec (2 * id + p') (2 * id + p)) as [Ep|_]; [|auto].
        assert (p' = p) by lia. subst p'. destruct (Nat.eq_dec v' v) as [->|Hne].
        -- now apply nth_set_nth_eq.
        -- rewrite nth_set_nth_neq; [auto|]. nia.
      * unfold fset. rewrite Nat.eqb_refl. now apply nth_set_nth_eq.
    + intros i k Hk. assert (Hk' : nth k (fs i) 0%R = nth k (faces i) 0%R).
      { apply Hout. intros v' p' Hi. apply (Hk v' p'). apply in_app_iff. now left. }
      unfold fset. destruct (Nat.eqb_spec i (2 * id + p)) as [->|_]; [|auto].
      rewrite nth_set_nth_neq; [auto|]. apply not_eq_sym. apply (Hk v p); auto. apply in_elt.
  - exists faces'. split; [exact E|]. split; [exact Hl|]. split.
    + intros v p Hv Hp. apply Hin. apply in_prod_iff. split; [apply in_seq; lia|]. cbn. lia.
    + intros i k Hk. apply Hout. intros v p Hi Ei. apply in_prod_iff in Hi as [Hv Hp]. apply in_seq in Hv.
      assert (p < 2) by (destruct Hp as [<-|[<-|[]]]; lia).
      destruct Hk as [Hk|Hk]; [|apply Hk; lia]. exfalso. apply Hk. rewrite Ei.
      symmetry. apply (Nat.div_unique _ 2 id p); lia.
Qed.

(** * In terms of coordinates *)

Lemma digits_ext b n : 0 < b -> forall x y, x < b ^ n -> y < b ^ n -> (forall d, d < n -> digit b n d x = digit b n d y) -> x = y.
Proof.
  intros Hb. induction n as [|n IH]; intros x y Hx Hy H; [cbn in *; lia|].
  pose proof (pow_pos' b n Hb) as Hp.
  pose proof (H 0 ltac:(lia)) as H0. rewrite !digit_0 in H0 by auto.
  assert (E : x mod b ^ n = y mod b ^ n).
  { apply IH; try (apply Nat.mod_upper_bound; lia). intros d Hd. rewrite <- !digit_S by auto. apply H. lia. }
  rewrite (Nat.div_mod x (b ^ n)), (Nat.div_mod y (b ^ n)) by lia. now rewrite H0, E.
Qed.

Lemma in_row_iff n rs id f j q : 0 < rs -> id < n -> f < rs ^ (n - 1) -> j < rs ->
  (in_row n rs id f j q <-> q = i_qpoint (nth_row n rs id f) j).
Proof.
  intros Hrs Hid Hf Hj. split.
  - intros (Hq & Ej & Hd). destruct (row_in_row n rs id f j Hrs Hid Hf Hj) as ((Hq' & Ej' & Hd') & _).
    apply (digits_ext rs n Hrs); auto. intros d Hdn. destruct (Nat.eq_dec d id) as [->|Hne]; [congruence|].
    rewrite Hd, Hd' by auto. reflexivity.
  - intros ->. apply row_in_row; auto.
Qed.

Lemma in_row_node n rs id f j q : 0 < rs -> in_row n rs id f j q -> j < rs.
Proof. intros Hrs (_ & <- & _). apply Nat.mod_upper_bound. lia. Qed.

Lemma visited_nth n rs id l ind : 0 < rs -> id < n -> row_loop (S (rs ^ (n - 1))) (row_begin n rs id) = Ok l -> In ind l ->
  exists f, f < rs ^ (n - 1) /\ ind = nth_row n rs id f /\ i_face_qpoint ind = f.
Proof.
  intros Hrs Hid E Hin. rewrite row_begin_nth, row_loop_nth in E by lia. injection E as <-.
  apply in_map_iff in Hin as (f & <- & Hf). apply in_seq in Hf. exists f. repeat split; lia.
Qed.

Lemma write_row_coords n rs id l ind n_var w data coef : 0 < rs -> id < n ->
  row_loop (S (rs ^ (n - 1))) (row_begin n rs id) = Ok l -> In ind l -> length data = n_var * rs ^ n ->
  exists data', write_row n_var rs w data ind coef = Ok data' /\ length data' = length data
    /\ forall v q, v < n_var -> q < rs ^ n ->
       (forall j, in_row n rs id (i_face_qpoint ind) j q -> nth (v * rs ^ n + q) data' 0%R = (coef * nth (v * rs ^ n + q) data 0 + w j v)%R)
       /\ ((forall j, ~ in_row n rs id (i_face_qpoint ind) j q) -> nth (v * rs ^ n + q) data' 0%R = nth (v * rs ^ n + q) data 0%R).
Proof.
  intros Hrs Hid El Hin Hlen. destruct (visited_nth n rs id l ind Hrs Hid El Hin) as (f & Hf & -> & ->).
  destruct (write_row_effect n rs id f n_var w data coef Hrs Hid Hf Hlen) as (data' & E & Hl & Hi & Ho).
  exists data'. split; [exact E|]. split; [exact Hl|]. intros v q Hv Hq. split.
  - intros j Hj. pose proof (in_row_node _ _ _ _ _ _ Hrs Hj) as Hjr. apply in_row_iff in Hj; auto. subst q.
    apply (Hi v j); auto.
  - intros Hno. apply Ho. intros v' j Hv' Hj Heq. unfold row_idx in Heq. cbn [fst snd] in Heq.
    pose proof (qpoint_lt n rs id f j Hrs Hid Hf Hj). assert (v = v') by nia. subst v'.
    apply (Hno j). apply in_row_iff; auto. lia.
Qed.

Lemma read_row_coords n rs id l ind n_var data r0 : 0 < rs -> id < n ->
  row_loop (S (rs ^ (n - 1))) (row_begin n rs id) = Ok l -> In ind l -> length data = n_var * rs ^ n ->
  exists r, read_row n_var rs data ind r0 = Ok r
    /\ (forall v j q, v < n_var -> in_row n rs id (i_face_qpoint ind) j q -> r j v = nth (v * rs ^ n + q) data 0%R)
    /\ write_row n_var rs r data ind 0 = Ok data.
Proof.
  intros Hrs Hid El Hin Hlen. destruct (visited_nth n rs id l ind Hrs Hid El Hin) as (f & Hf & -> & ->).
  destruct (read_write_back n rs id f n_var data r0 Hrs Hid Hf Hlen) as (r & E & Hw). exists r. split; [exact E|]. split; [|exact Hw].
  destruct (read_row_value n rs id f n_var data r0 Hrs Hid Hf Hlen) as (r' & E' & Hr). rewrite E in E'. injection E' as <-.
  intros v j q Hv Hj. pose proof (in_row_node _ _ _ _ _ _ Hrs Hj) as Hjr. apply in_row_iff in Hj; auto. subst q. now apply Hr.
Qed.

Lemma bound_coords n rs id l ind n_var b faces b0 : 0 < rs -> id < n ->
  row_loop (S (rs ^ (n - 1))) (row_begin n rs id) = Ok l -> In ind l ->
  (forall i, i < 2 * n -> length (faces i) = n_var * rs ^ (n - 1)) ->
  (exists b', read_bound n_var faces ind b0 = Ok b'
     /\ forall v p, v < n_var -> p < 2 -> b' p v = nth (v * rs ^ (n - 1) + i_face_qpoint ind) (faces (2 * id + p)) 0%R)
  /\ exists faces', write_bound n_var b faces ind = Ok faces' /\ (forall i, length (faces' i) = length (faces i))
     /\ (forall v p, v < n_var -> p < 2 -> nth (v * rs ^ (n - 1) + i_face_qpoint ind) (faces' (2 * id + p)) 0%R = b p v)
     /\ (forall i k, (i / 2 <> id \/ forall v, v < n_var -> k <> v * rs ^ (n - 1) + i_face_qpoint ind) ->
           nth k (faces' i) 0%R = nth k (faces i) 0%R).
Proof.
  intros Hrs Hid El Hin Hlen. destruct (visited_nth n rs id l ind Hrs Hid El Hin) as (f & Hf & -> & ->).
  split; [now apply read_bound_value|now apply write_bound_effect].
Qed.
