(** From the checks of the last sweep to the specification *)
From Coq Require Import ZArith List Bool Arith Lia Permutation.
From Verif Require Import Outcome Loop ListUtil Tree_Model Tree_Spec Tree_Proofs Tree_Neighbors Tree_Flood Tree_Thm Update_Model Update_Spec Update_Proofs1 Update_Proofs2
  Update_Proofs3 Update_Proofs4 Trim_Model Trim_Spec Trim_Proofs1 Trim_Proofs2.
Import ListNotations.
Local Open Scope nat_scope.

(** ** The face of a dimension and sign *)
Definition face_of (d : nat) (sign : Z) : nat := 2 * d + (if (sign =? 1)%Z then 1 else 0).
Lemma face_of_half d sign : face_of d sign / 2 = d.
Proof. unfold face_of. rewrite (Nat.mul_comm 2 d), Nat.div_add_l by lia. destruct (sign =? 1)%Z; apply Nat.add_0_r. Qed.
Lemma face_of_sign d sign : unit_sign sign -> face_sign (face_of d sign) = sign.
Proof. intros H. unfold face_sign, face_of. rewrite Nat.add_comm, Nat.mul_comm, Nat.mod_add by lia. destruct H as [-> | ->]; reflexivity. Qed.
Lemma face_of_lt n d sign : d < n -> face_of d sign < 2 * n.
Proof. unfold face_of. destruct (sign =? 1)%Z; lia. Qed.
Lemma face_of_dir n d sign : unit_sign sign -> face_dir n (face_of d sign) = direct n d sign.
Proof. intros H. unfold face_dir. now rewrite face_of_half, face_of_sign. Qed.
Lemma face_of_lt2 a b s t : a < b -> face_of a s < 2 * (face_of b t / 2).
Proof. intros H. rewrite face_of_half. now apply face_of_lt. Qed.
Lemma unit_face f : unit_sign (face_sign f).
Proof. unfold face_sign, unit_sign. destruct (f mod 2 =? 0); auto. Qed.
Lemma face_of_back f : face_of (f / 2) (face_sign f) = f.
Proof.
  unfold face_of, face_sign. pose proof (Nat.div_mod f 2 ltac:(lia)). pose proof (Nat.mod_upper_bound f 2 ltac:(lia)).
  destruct (Nat.eqb_spec (f mod 2) 0); change (2 * (f / 2) + 0 = f) || change (2 * (f / 2) + 1 = f); lia.
Qed.

Lemma diag_edge n dir a b : edge_between n dir a b -> diag_dir n (face_of b (nth b dir 0%Z)) (face_of a (nth a dir 0%Z)) = dir.
Proof.
  intros (L & Hab & Hb & Sa & Sb & Z). apply (nth_ext _ _ 0%Z 0%Z); [rewrite diag_dir_length; congruence|]. rewrite diag_dir_length. intros k Hk.
  unfold diag_dir. rewrite (nth_map_seq n (fun k => if k =? face_of a (nth a dir 0%Z) / 2 then face_sign (face_of a (nth a dir 0%Z)) else nth k (face_dir n (face_of b (nth b dir 0%Z))) 0%Z)) by exact Hk.
  rewrite face_of_half, face_of_sign by exact Sa. destruct (Nat.eqb_spec k a) as [->|Hka]; [reflexivity|].
  rewrite face_of_dir, nth_direct by assumption. destruct (Nat.eqb_spec k b) as [->|Hkb]; [reflexivity|]. symmetry. auto.
Qed.
Lemma diag_corner n dir a b c : corner_between n dir a b c ->
  corner_dir n (face_of c (nth c dir 0%Z)) (face_of b (nth b dir 0%Z)) (face_of a (nth a dir 0%Z)) = dir.
Proof.
  intros (L & Hab & Hbc & Hc & Sa & Sb & Sc & Z). apply (nth_ext _ _ 0%Z 0%Z); [rewrite corner_dir_length; congruence|]. rewrite corner_dir_length. intros k Hk.
  unfold corner_dir. rewrite (nth_map_seq n (fun k => if k =? face_of a (nth a dir 0%Z) / 2 then face_sign (face_of a (nth a dir 0%Z)) else nth k (diag_dir n (face_of c (nth c dir 0%Z)) (face_of b (nth b dir 0%Z))) 0%Z)) by exact Hk.
  rewrite face_of_half, face_of_sign by exact Sa. destruct (Nat.eqb_spec k a) as [->|Hka]; [reflexivity|].
  unfold diag_dir. rewrite (nth_map_seq n (fun k => if k =? face_of b (nth b dir 0%Z) / 2 then face_sign (face_of b (nth b dir 0%Z)) else nth k (face_dir n (face_of c (nth c dir 0%Z))) 0%Z)) by exact Hk.
  rewrite face_of_half, face_of_sign by exact Sb. destruct (Nat.eqb_spec k b) as [->|Hkb]; [reflexivity|].
  rewrite face_of_dir, nth_direct by assumption. destruct (Nat.eqb_spec k c) as [->|Hkc]; [reflexivity|]. symmetry. auto.
Qed.

(** ** Elements on leaves *)
Lemma exists_occupied n st q y : Cons n st -> leaf_at (s_tree st) q y -> (exists_at st q = true <-> occupied st q y).
Proof.
  intros C Hy. rewrite exists_at_spec. split.
  - intros (i & H1 & H2). split; [exact Hy|]. exists i. now apply (lives_at n).
  - intros [_ [i H]]. exists i. now apply (lives_at n) in H.
Qed.
Lemma occupied_elem n st p x : Cons n st -> occupied st p x -> exists i, elem_at st p = Some i /\ record_of st i <> 2%Z.
Proof. intros C [_ [i H]]. exists i. now apply (lives_at n) in H. Qed.

Lemma face_nbs n st p x d sign : Cons n st -> leaf_at (s_tree st) p x -> d < n -> unit_sign sign ->
  exists nb, find_neighbors n (s_tree st) p (face_dir n (face_of d sign)) = Ok nb /\
    forall q, In q nb <-> exists y, leaf_at (s_tree st) q y /\ share_face n d sign x y.
Proof.
  intros [R _] Hx Hd Hs. destruct (tree_face_neighbors n _ p x d sign R Hx Hd Hs) as (nb & E & _ & H). exists nb.
  rewrite face_of_dir by exact Hs. auto.
Qed.

Lemma leaf_unique st p x y : leaf_at (s_tree st) p x -> leaf_at (s_tree st) p y -> x = y.
Proof. intros [H1 _] [H2 _]. congruence. Qed.

Lemma all_there_covered n st x nb d sign : Cons n st ->
  (forall q, In q nb <-> exists y, leaf_at (s_tree st) q y /\ share_face n d sign x y) -> (all_there st nb = true <-> covered_face n st x d sign).
Proof.
  intros C H. rewrite all_there_in. split.
  - intros A q y Hq F. apply (exists_occupied n st q y C Hq), A, H. eauto.
  - intros A q Hq. apply H in Hq as (y & Hy & F). apply (exists_occupied n st q y C Hy), (A q y Hy F).
Qed.

Lemma expo_covered n st p x d sign : Cons n st -> leaf_at (s_tree st) p x -> d < n -> unit_sign sign ->
  (expo n st p (face_of d sign) = false <-> covered_face n st x d sign).
Proof.
  intros C Hx Hd Hs. destruct (face_nbs n st p x d sign C Hx Hd Hs) as (nb & E & H). unfold expo. rewrite E, negb_false_iff.
  now apply all_there_covered.
Qed.

Lemma level_leaf n st p x : Cons n st -> leaf_at (s_tree st) p x -> level_at st p = t_level x.
Proof. intros _ [H _]. unfold level_at. now rewrite H. Qed.

Lemma quiet_extrudable n away st : Cons n st -> quiet n away st -> extrudable n st.
Proof.
  intros C Q. pose proof C as [R _]. split.
  - intros p x q y d sign Hp Hq Hd Hs F. destruct (occupied_elem n st p x C Hp) as (i & Hi & Hr).
    destruct (face_nbs n st p x d sign C (proj1 Hp) Hd Hs) as (nb & E & H).
    assert (Iq : In q nb) by (apply H; exists y; split; [apply Hq|exact F]).
    destruct (q_face n away st Q i p _ nb Hi Hr (face_of_lt n d sign Hd) E) as [L|[S|A]].
    + intros q' y' Hq' F'. assert (Iq' : In q' nb) by (apply H; eauto). destruct nb as [|a [|b nb]]; [destruct Iq| |cbn in L; lia].
      destruct Iq as [->|[]]. destruct Iq' as [->|[]]. now rewrite (leaf_unique st q' y' y Hq' (proj1 Hq)).
    + exfalso. assert (some_there st nb = true); [|congruence]. apply some_there_in. exists q. split; [exact Iq|].
      apply (exists_occupied n st q y C (proj1 Hq)), Hq.
    + now apply (all_there_covered n st x nb d sign C H).
  - intros p x q y dir a b Hp Hq E T L. pose proof E as (Ln & Hab & Hb & Sa & Sb & _).
    destruct (occupied_elem n st p x C Hp) as (i & Hi & Hr). assert (Ha : a < n) by lia.
    unfold side_covered. rewrite <- (expo_covered n st p x a _ C (proj1 Hp) Ha Sa), <- (expo_covered n st p x b _ C (proj1 Hp) Hb Sb).
    destruct (expo n st p (face_of a (nth a dir 0%Z))) eqn:Xa; [|auto]. destruct (expo n st p (face_of b (nth b dir 0%Z))) eqn:Xb; [exfalso|auto].
    destruct (tree_find_neighbors n _ p x dir R (proj1 (proj1 Hp))) as (nb & En & _ & _ & H); [lia|].
    rewrite <- (diag_edge n dir a b E) in En.
    assert (K : level_at st q < level_at st p).
    { apply (q_edge n away st Q i p _ _ nb Hi Hr (face_of_lt n b _ Hb) (face_of_lt2 a b _ _ Hab) En Xb Xa).
      - apply H. exists y. split; [apply Hq|exact T].
      - apply (exists_occupied n st q y C (proj1 Hq)), Hq. }
    rewrite (level_leaf n st p x C (proj1 Hp)), (level_leaf n st q y C (proj1 Hq)) in K. lia.
  - intros p x q y dir a b c Hp Hq E T L. pose proof E as (Ln & Hab & Hbc & Hc & Sa & Sb & Sc & _).
    destruct (occupied_elem n st p x C Hp) as (i & Hi & Hr). assert (Ha : a < n) by lia. assert (Hb : b < n) by lia.
    unfold side_covered. rewrite <- (expo_covered n st p x a _ C (proj1 Hp) Ha Sa), <- (expo_covered n st p x b _ C (proj1 Hp) Hb Sb),
      <- (expo_covered n st p x c _ C (proj1 Hp) Hc Sc).
    destruct (expo n st p (face_of a (nth a dir 0%Z))) eqn:Xa; [|auto]. destruct (expo n st p (face_of b (nth b dir 0%Z))) eqn:Xb; [|auto].
    destruct (expo n st p (face_of c (nth c dir 0%Z))) eqn:Xc; [exfalso|auto].
    destruct (tree_find_neighbors n _ p x dir R (proj1 (proj1 Hp))) as (nb & En & _ & _ & H); [lia|].
    rewrite <- (diag_corner n dir a b c E) in En.
    assert (K : level_at st q < level_at st p).
    { apply (q_corner n away st Q i p _ _ _ nb Hi Hr (face_of_lt n c _ Hc) (face_of_lt2 b c _ _ Hbc) (face_of_lt2 a b _ _ Hab) En Xc Xb Xa).
      - apply H. exists y. split; [apply Hq|exact T].
      - apply (exists_occupied n st q y C (proj1 Hq)), Hq. }
    rewrite (level_leaf n st p x C (proj1 Hp)), (level_leaf n st q y C (proj1 Hq)) in K. lia.
  - intros E3 p x q y dir a b Hp Hq E T X q' y' Hq' T'. pose proof E as (Ln & Hab & Hb & Sa & Sb & _).
    destruct (occupied_elem n st p x C Hp) as (i & Hi & Hr). assert (Ha : a < n) by lia.
    unfold side_covered in X. rewrite <- (expo_covered n st p x a _ C (proj1 Hp) Ha Sa), <- (expo_covered n st p x b _ C (proj1 Hp) Hb Sb) in X.
    destruct (tree_find_neighbors n _ p x dir R (proj1 (proj1 Hp))) as (nb & En & _ & _ & H); [lia|].
    pose proof En as En'. rewrite <- (diag_edge n dir a b E) in En'.
    destruct (q_partial n away st Q i p _ _ nb E3 Hi Hr (face_of_lt n b _ Hb) (face_of_lt2 a b _ _ Hab) En') as [S|A].
    + destruct (expo n st p (face_of b (nth b dir 0%Z))), (expo n st p (face_of a (nth a dir 0%Z))); cbn; intuition congruence.
    + exfalso. assert (some_there st nb = true); [|congruence]. apply some_there_in. exists q. split; [apply H; exists y; split; [apply Hq|exact T]|].
      apply (exists_occupied n st q y C (proj1 Hq)), Hq.
    + apply (exists_occupied n st q' y' C Hq'). apply (proj1 (all_there_in st nb) A). apply H. eauto.
Qed.

(** a mesh that fills its tree is left as it is *)
Lemma filled_exists n st q : Cons n st -> filled st -> (exists y, leaf_at (s_tree st) q y) -> exists_at st q = true.
Proof. intros C F [y Hy]. apply (exists_occupied n st q y C Hy). split; [exact Hy|]. eapply F; eauto. Qed.

Lemma scan_elem_filled n away i st : Cons n st -> filled st -> scan_elem n away i (st, false) = Ok (st, false).
Proof.
  intros C F. unfold scan_elem. cbn [fst]. destruct (tree_of st i) as [p|] eqn:Et; [|reflexivity].
  destruct (record_of st i =? 2)%Z eqn:Er; [reflexivity|]. apply (tree_of_at n st i p C) in Et.
  assert (O : On n i p (st, false)) by (split; assumption). destruct (On_node n i p _ O) as (x & Hx & _). cbn [fst] in Hx.
  assert (K : forall k, ofold (scan_face n i p) (seq 0 k) ((st, false), []) = Ok ((st, false), repeat false k)).
  { induction k as [|k IH]; [reflexivity|]. rewrite seq_S, ofold_app, IH. cbn [bind ofold plus]. unfold scan_face.
    destruct (tree_find_neighbors n _ p x (face_dir n k) (proj1 C) Hx) as (nb & En & _ & _ & H); [rewrite face_dir_length; lia|].
    cbn [fst]. rewrite En. cbn [bind]. assert (A : all_there st nb = true).
    { apply all_there_in. intros q Hq. apply (filled_exists n st q C F). apply H in Hq as (y & Hy & _). eauto. }
    rewrite A. cbn [negb]. rewrite !andb_false_r.
    assert (G : forall m, m <= k -> ofold (scan_edge n i p (repeat false k ++ [false]) k) (seq 0 m) (st, false) = Ok (st, false)).
    { induction m as [|m IHm]; intros L; [reflexivity|]. rewrite seq_S, ofold_app, IHm by lia. cbn [bind ofold plus]. unfold scan_edge, is_exposed.
      rewrite app_nth2, app_nth1, nth_repeat by (rewrite repeat_length; lia). rewrite repeat_length, Nat.sub_diag. reflexivity. }
    rewrite G by (apply half_le). cbn [bind]. f_equal. f_equal. change [false] with (repeat false 1). rewrite <- repeat_app. f_equal. lia. }
  rewrite K. cbn [bind]. assert (N : existsb (fun b => b) (repeat false (2 * n)) = false).
  { destruct (existsb (fun b => b) (repeat false (2 * n))) eqn:B; [|reflexivity]. apply existsb_exists in B as (b & Hb & ->). now apply repeat_spec in Hb. }
  rewrite N. reflexivity.
Qed.
Lemma delete_bad_filled n away order fuel st : Cons n st -> filled st -> 0 < fuel -> delete_bad fuel n away order st = Ok st.
Proof.
  intros C F L. destruct fuel as [|fuel]; [lia|]. cbn [delete_bad].
  assert (K : forall l, ofold (scan_elem n away) l (st, false) = Ok (st, false)).
  { induction l as [|i l IH]; [reflexivity|]. cbn [ofold]. rewrite scan_elem_filled by assumption. exact IH. }
  rewrite K. reflexivity.
Qed.

(** doing it again changes nothing, whatever the order *)
Lemma quiet_scan_edge n away i p f g st : Cons n st -> quiet n away st -> elem_at st p = Some i -> record_of st i <> 2%Z -> f < 2 * n -> g < 2 * (f / 2) ->
  scan_edge n i p (map (expo n st p) (seq 0 (S f))) f g (st, false) = Ok (st, false).
Proof.
  intros C Q Hi Hr Hf Hg. pose proof (half_le f). assert (O : On n i p (st, false)) by (split; assumption).
  unfold scan_edge. cbn [fst]. rewrite !expo_nth by lia. destruct (fn_ok n i p _ _ O (diag_dir_length n f g)) as (nb & En). cbn [fst] in En. rewrite En. cbn [bind].
  assert (D : forall nb, (forall q, In q nb -> exists_at st q = true -> level_at st q < level_at st p) -> delete_diag i (level_at st p) nb (st, false) = (st, false)).
  { induction nb0 as [|q nb0 IH]; intros Hn; [reflexivity|]. cbn [delete_diag fold_left].
    replace (exists_at st q && (level_at st p <=? level_at st q)) with false; [apply IH; intros q' H1; apply Hn; now right|].
    symmetry. destruct (exists_at st q) eqn:Xq; [|reflexivity]. apply Nat.leb_gt. apply Hn; [now left|exact Xq]. }
  destruct (expo n st p f) eqn:Xf, (expo n st p g) eqn:Xg; cbn [orb andb]; [| | |reflexivity].
  - rewrite D by (apply (q_edge n away st Q i p f g nb Hi Hr Hf Hg En Xf Xg)).
    assert (K : forall m, m <= 2 * (g / 2) -> ofold (scan_corner n i p (map (expo n st p) (seq 0 (S f))) f g) (seq 0 m) (st, false) = Ok (st, false)).
    { induction m as [|m IH]; intros L; [reflexivity|]. rewrite (seq_S m 0), ofold_app, IH by lia. cbn [bind ofold plus]. unfold scan_corner. cbn [fst].
      pose proof (half_le g). rewrite expo_nth by lia. destruct (expo n st p m) eqn:Xm; [|reflexivity].
      destruct (fn_ok n i p _ _ O (corner_dir_length n f g m)) as (nc & Ec). cbn [fst] in Ec. rewrite Ec. cbn [bind].
      rewrite D; [reflexivity|]. apply (q_corner n away st Q i p f g m nc Hi Hr Hf Hg ltac:(lia) Ec Xf Xg Xm). }
    apply K. lia.
  - destruct (Nat.eqb_spec n 3) as [E3|]; [|reflexivity].
    destruct (q_partial n away st Q i p f g nb E3 Hi Hr Hf Hg En) as [S|A]; [now rewrite Xf, Xg|rewrite S|rewrite A]; now rewrite ?andb_false_r.
  - destruct (Nat.eqb_spec n 3) as [E3|]; [|reflexivity].
    destruct (q_partial n away st Q i p f g nb E3 Hi Hr Hf Hg En) as [S|A]; [now rewrite Xf, Xg|rewrite S|rewrite A]; now rewrite ?andb_false_r.
Qed.
Lemma quiet_scan n away i st : Cons n st -> quiet n away st -> scan_elem n away i (st, false) = Ok (st, false).
Proof.
  intros C Q. unfold scan_elem. cbn [fst]. destruct (tree_of st i) as [p|] eqn:Et; [|reflexivity].
  destruct (record_of st i =? 2)%Z eqn:Er; [reflexivity|]. apply (tree_of_at n st i p C) in Et. apply Z.eqb_neq in Er.
  assert (O : On n i p (st, false)) by (split; assumption).
  assert (K : forall k, k <= 2 * n -> ofold (scan_face n i p) (seq 0 k) ((st, false), []) = Ok ((st, false), map (expo n st p) (seq 0 k))).
  { induction k as [|k IH]; intros L; [reflexivity|]. rewrite (seq_S k 0), ofold_app, IH by lia. cbn [bind ofold plus]. unfold scan_face. cbn [fst].
    destruct (fn_ok n i p _ _ O (face_dir_length n k)) as (nb & En). cbn [fst] in En. rewrite En. cbn [bind].
    replace (map (expo n st p) (seq 0 k) ++ [negb (all_there st nb)]) with (map (expo n st p) (seq 0 (S k))).
    2:{ rewrite (seq_S k 0), map_app. cbn. unfold expo at 2. now rewrite En. }
    replace ((1 <? length nb) && (some_there st nb && negb (all_there st nb))) with false.
    2:{ symmetry. destruct (q_face n away st Q i p k nb Et Er ltac:(lia) En) as [A|[A|A]].
        - destruct (Nat.ltb_spec 1 (length nb)); [lia|reflexivity].
        - rewrite A. now rewrite andb_false_r.
        - rewrite A. cbn. now rewrite !andb_false_r. }
    assert (G : forall m, m <= 2 * (k / 2) -> ofold (scan_edge n i p (map (expo n st p) (seq 0 (S k))) k) (seq 0 m) (st, false) = Ok (st, false)).
    { induction m as [|m IHm]; intros Lm; [reflexivity|]. rewrite (seq_S m 0), ofold_app, IHm by lia. cbn [bind ofold plus].
      now rewrite (quiet_scan_edge n away i p k m st C Q Et Er ltac:(lia) ltac:(lia)). }
    rewrite G by lia. cbn [bind]. rewrite ?(seq_S k 0). reflexivity. }
  rewrite K by lia. cbn [bind]. destruct (existsb (expo n st p) (seq 0 (2 * n))) eqn:X.
  - rewrite (q_away n away st Q i p Et Er X), andb_false_r. reflexivity.
  - assert (Y : existsb (fun b => b) (map (expo n st p) (seq 0 (2 * n))) = false).
    { destruct (existsb (fun b => b) (map (expo n st p) (seq 0 (2 * n)))) eqn:Y; [|reflexivity]. apply existsb_exists in Y as (b & Hb & ->).
      apply in_map_iff in Hb as (f & Ef & Hf). assert (existsb (expo n st p) (seq 0 (2 * n)) = true) by (apply existsb_exists; eauto). congruence. }
    rewrite Y. reflexivity.
Qed.
Lemma delete_bad_quiet n away order fuel st : Cons n st -> quiet n away st -> 0 < fuel -> delete_bad fuel n away order st = Ok st.
Proof.
  intros C Q L. destruct fuel as [|fuel]; [lia|]. cbn [delete_bad].
  assert (K : forall l, ofold (scan_elem n away) l (st, false) = Ok (st, false)).
  { induction l as [|i l IH]; [reflexivity|]. cbn [ofold]. rewrite quiet_scan by assumption. exact IH. }
  rewrite K. reflexivity.
Qed.
