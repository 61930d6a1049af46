(** Reading a mesh file back, part 3: the whole file. *)
From Coq Require Import ZArith List Bool Reals Permutation Lia.
From Verif Require Import Outcome Math_Model Math_Thm Loop Connection_Model Mesh_Model Mesh_Spec Mesh_Proofs Mesh_Proofs2 Mesh_Proofs3 Mesh_Proofs4 Mesh_Proofs5 Mesh_Proofs6 Mesh_Proofs7 Mesh_Proofs8.
Import ListNotations.
Local Open Scope Z_scope.
Local Arguments i_face : simpl never.
Local Arguments face_number : simpl never.
Local Arguments Nat.ltb : simpl never.

Lemma run_rows_app : forall A (step : A -> mesh -> result unit) l l' m, run_rows step (l ++ l') m = then_ (run_rows step l m) (fun m _ => run_rows step l' m).
Proof. intros A step l l'. induction l as [|x l IH]; intros m; [reflexivity|]. cbn. destruct (step x m) as [m' []|m'|]; cbn; auto. Qed.

(** refined connections *)
Fixpoint app_slot {A} (s : nat) (xs : list A) (l : list (list A)) : list (list A) :=
  match l, s with [], _ => [] | y :: l, O => (y ++ xs) :: l | y :: l, S s => y :: app_slot s xs l end.
Lemma append_at_slot : forall A s (x : A) l l', append_at s x l = Some l' -> l' = app_slot s [x] l.
Proof.
  intros A s x l. revert s. induction l as [|y l IH]; intros [|s] l' H; cbn in *; try discriminate; [congruence|]. destruct (append_at s x l) as [r|] eqn:E; [|discriminate]. injection H as <-. now rewrite <- (IH s r E).
Qed.
Lemma app_slot_app : forall A s (xs ys : list A) l, app_slot s ys (app_slot s xs l) = app_slot s (xs ++ ys) l.
Proof. intros A s xs ys l. revert s. induction l as [|y l IH]; intros [|s]; cbn; try reflexivity; [now rewrite app_assoc|now rewrite IH]. Qed.
Lemma app_slot_nil : forall A s (l : list (list A)), app_slot s [] l = l.
Proof. intros A s l. revert s. induction l as [|y l IH]; intros [|s]; cbn; try reflexivity; [now rewrite app_nil_r|now rewrite IH]. Qed.

Definition ref_ok (m : mesh) (d : bool) (s : nat) (c : ref_con) : Prop :=
  length (r_fine c) = n_fine s /\ (dim0 (r_dir c) < n_dim m)%nat /\ (dim1 (r_dir c) < n_dim m)%nat /\ ref_kind (n_dim m) d c
  /\ (forall a, In a (r_coarse c :: r_fine c) -> In a (elements m))
  /\ (if d then forall k, nth k (r_str c) false = true -> (k < n_dim m - 1)%nat else exists a, In a (r_coarse c :: r_fine c) /\ fst a = false).
Definition refs_step (m : mesh) (d : bool) (rows : list (list Z)) (mm : mesh) (f : list (list _) -> list (list _)) : Prop :=
  exists mm', run_rows (read_ref (pointers m)) rows mm = Done mm' tt /\ frame mm mm' /\ elems_of mm' = elems_of mm
    /\ refs_of d mm' = f (refs_of d mm) /\ refs_of (negb d) mm' = refs_of (negb d) mm
    /\ (forall e, length (refs (of_type e mm')) = length (refs (of_type e mm)))
    /\ (forall e, cons_of e mm' = cons_of e mm) /\ (forall e, bounds_of e mm' = bounds_of e mm).
Lemma read_slot_rows : forall m (d : bool) s cs mm, (1 <= n_dim m <= 3)%nat -> n_dim mm = n_dim m -> length (refs (of_type d mm)) = 3%nat -> (s < 3)%nat ->
  (forall c, In c cs -> ref_ok m d s c) ->
  refs_step m d (map (write_ref (number_elements m)) cs) mm (app_slot s (map (rename_ref (renumber m) (order_of m d)) cs)).
Proof.
  intros m d s cs. induction cs as [|c cs IH]; intros mm N ND L S H.
  - exists mm. cbn. rewrite app_slot_nil. split; [reflexivity|]. split; [apply frame_refl|]. now repeat split.
  - destruct (H c) as (H1 & H2 & H3 & H4 & H5 & H6); [now left|]. destruct (read_ref_row m d s c mm N ND L S H1 H2 H3 H4 H5 H6) as (m1 & E & F & EL & RE & RO & RL & C & B).
    pose proof F as (FD & _). destruct (IH m1) as (m2 & E2 & F2 & EL2 & RE2 & RO2 & RL2 & C2 & B2); [lia|congruence|now rewrite RL|exact S|intros; apply H; now right|].
    exists m2. cbn [map run_rows]. rewrite E. cbn [then_]. split; [exact E2|]. split; [exact (frame_trans _ _ _ F F2)|]. split; [congruence|].
    apply append_at_slot in RE. rewrite RE2, RE, app_slot_app. split; [reflexivity|]. split; [congruence|]. split; [intros e; now rewrite RL2|]. split; intros e; now rewrite ?C2, ?B2.
Qed.
Lemma refs_step_app : forall m d l l' mm f g, refs_step m d l mm f -> (forall mm', n_dim mm' = n_dim mm -> length (refs (of_type d mm')) = length (refs (of_type d mm)) -> refs_step m d l' mm' g) -> refs_step m d (l ++ l') mm (fun x => g (f x)).
Proof.
  intros m d l l' mm f g (m1 & E & F & EL & RE & RO & RL & C & B) H. destruct (H m1) as (m2 & E2 & F2 & EL2 & RE2 & RO2 & RL2 & C2 & B2); [apply F|apply RL|].
  exists m2. rewrite run_rows_app, E. split; [exact E2|]. split; [exact (frame_trans _ _ _ F F2)|]. split; [congruence|]. split; [congruence|]. split; [congruence|]. split; [intros e; now rewrite RL2|]. split; intros e; now rewrite ?C2, ?B2.
Qed.
Lemma read_type_rows : forall m (d : bool) rs mm, (1 <= n_dim m <= 3)%nat -> n_dim mm = n_dim m -> refs_of d mm = [[]; []; []] -> length rs = 3%nat ->
  (forall s c, (s < 3)%nat -> In c (nth s rs []) -> ref_ok m d s c) ->
  refs_step m d (map (write_ref (number_elements m)) (concat rs)) mm (fun _ => map (map (rename_ref (renumber m) (order_of m d))) rs).
Proof.
  intros m d rs mm N ND R L H. destruct rs as [|r0 [|r1 [|r2 [|r3 rs]]]]; try discriminate. cbn [concat]. rewrite app_nil_r, !map_app.
  assert (L3 : length (refs (of_type d mm)) = 3%nat) by (apply (f_equal (@length _)) in R; unfold refs_of in R; rewrite map_length in R; exact R).
  pose proof (fun s => read_slot_rows m d s) as T.
  destruct (refs_step_app m d (map (write_ref (number_elements m)) r0) (map (write_ref (number_elements m)) r1 ++ map (write_ref (number_elements m)) r2) mm
    (app_slot 0 (map (rename_ref (renumber m) (order_of m d)) r0)) (fun x => app_slot 2 (map (rename_ref (renumber m) (order_of m d)) r2) (app_slot 1 (map (rename_ref (renumber m) (order_of m d)) r1) x))) as (m2 & E2 & F2 & EL2 & RE2 & REST).
  - apply T; try assumption; try lia. intros c I. apply H; [lia|exact I].
  - intros m1 D1 L1. apply refs_step_app.
    + apply T; try assumption; try congruence; try lia. intros c I. apply H; [lia|exact I].
    + intros m2 D2 L2. apply T; try assumption; try congruence; try lia. intros c I. apply H; [lia|exact I].
  - exists m2. split; [exact E2|]. split; [exact F2|]. split; [exact EL2|]. rewrite RE2, R. split; [reflexivity|exact REST].
Qed.

(** elements *)
Fixpoint numbered (k : Z) (l : list element) : list (Z * element) := match l with [] => [] | e :: l => (k, e) :: numbered (k + 1) l end.
Definition bare (e : element) : element := mk_element (e_level e) (e_pos e) [].
Lemma numbered_app : forall l l' k, numbered k (l ++ l') = numbered k l ++ numbered (k + Z.of_nat (length l)) l'.
Proof. induction l as [|e l IH]; intros l' k; cbn [app numbered length]; [now rewrite Z.add_0_r|]. rewrite IH. now replace (k + 1 + Z.of_nat (length l)) with (k + Z.of_nat (S (length l))) by lia. Qed.
Lemma numbered_snd : forall l k, map snd (numbered k l) = l. Proof. induction l as [|e l IH]; intros k; cbn; [reflexivity|now rewrite IH]. Qed.
Lemma numbered_bound : forall l k e, In e (numbered k l) -> k <= fst e < k + Z.of_nat (length l).
Proof. induction l as [|x l IH]; intros k e []; cbn [length]; [subst; cbn; lia|]. apply IH in H. lia. Qed.
Lemma numbered_fst : forall l l' k, length l = length l' -> map fst (numbered k l) = map fst (numbered k l').
Proof. induction l as [|e l IH]; intros [|e' l'] k L; try discriminate; cbn; [reflexivity|]. f_equal. apply IH. cbn in L. lia. Qed.

Lemma read_elems_app : forall l l' m p, read_elems (l ++ l') m p = then_ (read_elems l m p) (fun m p => read_elems l' m p).
Proof. induction l as [|[[lv ps] d] l IH]; intros l' m p; [reflexivity|]. cbn. apply IH. Qed.
Lemma read_elems_same : forall d (es : list (Z * element)) mm p, (forall a, record mm a = 0) ->
  exists mm', read_elems (map (fun e => (e_level (snd e), e_pos (snd e), d)) es) mm p = Done mm' (p ++ map (fun x => (d, fst x)) (numbered (next_sn (of_type d mm)) (map snd es)))
    /\ frame mm mm' /\ elems (of_type d mm') = elems (of_type d mm) ++ numbered (next_sn (of_type d mm)) (map (fun e => bare (snd e)) es)
    /\ of_type (negb d) mm' = of_type (negb d) mm /\ cons (of_type d mm') = cons (of_type d mm) /\ refs (of_type d mm') = refs (of_type d mm) /\ bounds (of_type d mm') = bounds (of_type d mm).
Proof.
  intros d es. induction es as [|e es IH]; intros mm p R.
  - exists mm. cbn. rewrite !app_nil_r. split; [reflexivity|]. split; [apply frame_refl|]. now repeat split.
  - cbn [map read_elems add_element then_]. set (m1 := with_record _ _).
    assert (R1 : forall a, record m1 a = 0). { intros a. cbn. destruct (addr_eqb _ _); [reflexivity|]. destruct d; apply R. }
    assert (T : of_type d m1 = with_elems (next_sn (of_type d mm) + 1) (elems (of_type d mm) ++ [(next_sn (of_type d mm), bare (snd e))]) (of_type d mm)) by now destruct d.
    destruct (IH m1 (p ++ [(d, next_sn (of_type d mm))]) R1) as (m2 & E & F & EL & O & C & RF & B).
    exists m2. rewrite E, T. cbn [next_sn with_elems]. split; [now rewrite <- app_assoc|]. split.
    { apply (frame_trans _ m1); [|exact F]. repeat split; try (now destruct d). intros a. now rewrite R, R1. }
    rewrite EL, O, C, RF, B, T. cbn. rewrite <- app_assoc. split; [reflexivity|]. split; [now destruct d|]. now repeat split.
Qed.

(** positions *)
Lemma position_at : forall l1 e l2 i, NoDup (map fst (l1 ++ e :: l2)) -> position (fst e) (l1 ++ e :: l2) i = i + Z.of_nat (length l1).
Proof.
  induction l1 as [|x l1 IH]; intros e l2 i N; cbn [app position length].
  - rewrite Z.eqb_refl. lia.
  - cbn in N. inversion N as [|? ? NI ND]. subst. destruct (Z.eqb_spec (fst x) (fst e)) as [E|E].
    + exfalso. apply NI. rewrite E. rewrite map_app. apply in_or_app. right. now left.
    + rewrite IH by exact ND. lia.
Qed.
Lemma positions : forall l2 l1 i, NoDup (map fst (l1 ++ l2)) -> map (fun e => position (fst e) (l1 ++ l2) i) l2 = map fst (numbered (i + Z.of_nat (length l1)) (map snd l2)).
Proof.
  induction l2 as [|e l2 IH]; intros l1 i N; [reflexivity|]. cbn [map numbered fst]. rewrite position_at by exact N. f_equal.
  specialize (IH (l1 ++ [e]) i). rewrite <- app_assoc in IH. cbn [app] in IH. rewrite IH by exact N. rewrite app_length. cbn [length]. do 2 f_equal. lia.
Qed.
Lemma position_spec : forall sn l i, In sn (map fst l) -> exists k e, position sn l i = i + Z.of_nat k /\ nth_error l k = Some e /\ fst e = sn.
Proof.
  intros sn l. induction l as [|e l IH]; intros i I; [destruct I|]. cbn [position]. destruct (Z.eqb_spec (fst e) sn) as [E|E]; [exists 0%nat, e; split; [lia|]; now split|].
  destruct I as [I|I]; [congruence|]. destruct (IH (i + 1) I) as (k & e' & -> & NE & F). exists (S k), e'. split; [lia|]. now split.
Qed.
Lemma in_elements : forall m a, In a (elements m) <-> In (snd a) (map fst (elems (of_type (fst a) m))).
Proof.
  intros m [d sn]. unfold elements, addrs. rewrite in_app_iff, !in_map_iff. cbn [fst snd]. split.
  - intros [(e & E & I)|(e & E & I)]; injection E as <- <-; exists e; now split.
  - intros (e & E & I). destruct d; [right|left]; exists e; split; auto; now rewrite E.
Qed.
Lemma renumber_inj : forall m a b, In a (elements m) -> In b (elements m) -> renumber m a = renumber m b -> a = b.
Proof.
  intros m [d sn] [d' sn'] A B E. apply in_elements in A. apply in_elements in B. unfold renumber in E. cbn [fst snd] in *. injection E as -> E.
  destruct (position_spec sn _ 0 A) as (k & e & P & NE & F). destruct (position_spec sn' _ 0 B) as (k' & e' & P' & NE' & F'). rewrite P, P' in E.
  assert (k = k') by lia. subst k'. rewrite NE in NE'. injection NE' as <-. congruence.
Qed.
Lemma pointers_numbered : forall m, wf m -> pointers m = map (fun x => (false, fst x)) (numbered 0 (map snd (elems (car m)))) ++ map (fun x => (true, fst x)) (numbered 0 (map snd (elems (def m)))).
Proof.
  intros m W. unfold pointers, elements, addrs. rewrite map_app, !map_map. unfold renumber. cbn [fst snd of_type]. f_equal.
  - pose proof (positions (elems (car m)) [] 0 (wt_sn _ _ _ (wf_car _ W))) as P. cbn in P. apply (f_equal (map (pair false))) in P. rewrite !map_map in P. exact P.
  - pose proof (positions (elems (def m)) [] 0 (wt_sn _ _ _ (wf_def _ W))) as P. cbn in P. apply (f_equal (map (pair true))) in P. rewrite !map_map in P. exact P.
Qed.

(** face warping *)
Lemma read_warps : forall m, wf m -> forall es2 es1 mm, elems (def m) = es1 ++ es2 ->
  elems (def mm) = numbered 0 (map snd es1 ++ map (fun e => bare (snd e)) es2) ->
  exists mm', run_rows (read_warp (pointers m)) (map (fun e => (record (number_elements m) (true, fst e), e_warp (snd e))) es2) mm = Done mm' tt /\ frame mm mm'
    /\ car mm' = car mm /\ elems (def mm') = numbered 0 (map snd (elems (def m))) /\ cons (def mm') = cons (def mm) /\ refs (def mm') = refs (def mm) /\ bounds (def mm') = bounds (def mm).
Proof.
  intros m W. induction es2 as [|e es2 IH]; intros es1 mm E L.
  - exists mm. cbn. rewrite L, E. cbn. rewrite !app_nil_r. split; [reflexivity|]. split; [apply frame_refl|]. now repeat split.
  - cbn [map run_rows]. unfold read_warp at 1. cbn [fst snd]. rewrite ptr_of by (apply in_elements; cbn; rewrite E; apply in_map, in_or_app; right; now left).
    unfold renumber. cbn [fst snd of_type]. assert (PE : position (fst e) (elems (def m)) 0 = Z.of_nat (length es1)).
    { rewrite E. rewrite position_at by (rewrite <- E; exact (wt_sn _ _ _ (wf_def _ W))). lia. }
    rewrite PE. cbn [then_].
    set (m1 := set_warp _ _ mm).
    assert (L1 : elems (def m1) = numbered 0 (map snd (es1 ++ [e]) ++ map (fun e => bare (snd e)) es2)).
    { unfold m1, set_warp. cbn. rewrite L, map_app, <- app_assoc. cbn [map app]. rewrite !numbered_app, map_length, map_app. cbn [numbered map fst snd]. rewrite Z.eqb_refl. f_equal; [|f_equal].
      - rewrite <- (map_id (numbered 0 (map snd es1))) at 2. apply map_ext_in. intros x I. apply numbered_bound in I. rewrite map_length in I. destruct (Z.eqb_spec (fst x) (Z.of_nat (length es1))); [lia|reflexivity].
      - f_equal. now destruct (snd e).
      - match goal with |- map _ ?l = _ => rewrite <- (map_id l) at 2 end. apply map_ext_in. intros x I. apply numbered_bound in I. destruct (Z.eqb_spec (fst x) (Z.of_nat (length es1))); [lia|reflexivity]. }
    destruct (IH (es1 ++ [e]) m1) as (m2 & E2 & F & C & EL & CC & RR & BB); [now rewrite <- app_assoc|exact L1|]. exists m2. split; [exact E2|]. split; [exact F|]. now repeat split.
Qed.

(** purging deletes nothing *)
Lemma erase_bounds_shape : forall p d m, exists F, erase_bounds p d m = with_faces F (with_type d (with_bounds (filter (fun c => negb (p c)) (bounds (of_type d m))) (of_type d m)) m).
Proof. intros p d m. unfold erase_bounds. match goal with |- context [fold_left ?f ?l ?m0] => destruct (clear_fold _ f (fun c => map fst (bound_ends c)) l (fun m c => drop_bound_clears c m) m0) as (F & -> & _) end. now exists F. Qed.
Lemma erase_cons_shape : forall p d m, exists F, erase_cons p d m = with_faces F (with_type d (with_cons (filter (fun c => negb (p c)) (cons (of_type d m))) (of_type d m)) m).
Proof. intros p d m. unfold erase_cons. match goal with |- context [fold_left ?f ?l ?m0] => destruct (clear_fold _ f (fun c => map fst (con_ends c)) l (fun m c => drop_con_clears c m) m0) as (F & -> & _) end. now exists F. Qed.
Lemma erase_refs_shape : forall p d m, exists F, erase_refs p d m = with_faces F (with_type d (with_refs (map (filter (fun c => negb (p c))) (refs (of_type d m))) (of_type d m)) m).
Proof. intros p d m. unfold erase_refs. match goal with |- context [fold_left ?f ?l ?m0] => destruct (clear_fold _ f (fun c => map fst (ref_ends c)) l (fun m c => drop_ref_clears c m) m0) as (F & -> & _) end. now exists F. Qed.
Lemma filter_all : forall A (p : A -> bool) l, (forall x, In x l -> p x = true) -> filter p l = l.
Proof. intros A p l. induction l as [|x l IH]; intros H; [reflexivity|]. cbn. rewrite H by now left. f_equal. apply IH. intros; apply H; now right. Qed.
Lemma purge_connections_keeps : forall d m, (forall a, record m a = 0) ->
  (forall cov c, covered m = Some cov -> In c (bounds (of_type d m)) -> cov (b_elem c) (face_number (b_dim c) (b_sign c)) = false) ->
  let m' := purge_connections d m in n_dim m' = n_dim m /\ covered m' = covered m /\ record m' = record m /\ of_type d m' = of_type d m /\ of_type (negb d) m' = of_type (negb d) m.
Proof.
  intros d m R C m'. unfold m', purge_connections.
  set (p1 := fun c : bound_con => (_ || _)%bool). set (p2 := fun c : con => (_ || _)%bool). set (p3 := fun c : ref_con => (_ || _)%bool).
  assert (Q1 : filter (fun c => negb (p1 c)) (bounds (of_type d m)) = bounds (of_type d m)).
  { apply filter_all. intros c I. unfold p1. rewrite R, i_face_number. cbn [b_dir i_dim face_sign dim0 sign0]. destruct (covered m) as [cov|] eqn:E; [now rewrite (C cov c eq_refl I)|reflexivity]. }
  assert (Q2 : filter (fun c => negb (p2 c)) (cons (of_type d m)) = cons (of_type d m)).
  { apply filter_all. intros c I. unfold p2. now rewrite !R. }
  assert (Q3 : map (filter (fun c => negb (p3 c))) (refs (of_type d m)) = refs (of_type d m)).
  { rewrite <- (map_id (refs (of_type d m))) at 2. apply map_ext. intros l. apply filter_all. intros c I. unfold p3. rewrite R. cbn. clear - R. induction (r_fine c) as [|a l' IH]; [reflexivity|]. cbn. now rewrite R. }
  clearbody p1 p2 p3. destruct (erase_bounds_shape p1 d m) as (F1 & ->). set (m1 := with_faces F1 _).
  assert (T1 : of_type d m1 = of_type d m) by (destruct d; cbn in *; rewrite Q1; [now destruct (def m)|now destruct (car m)]).
  destruct (erase_cons_shape p2 d m1) as (F2 & ->). set (m2 := with_faces F2 _).
  assert (T2 : of_type d m2 = of_type d m) by (unfold m2; rewrite T1; destruct d; cbn in *; rewrite Q2; [now destruct (def m)|now destruct (car m)]).
  destruct (erase_refs_shape p3 d m2) as (F3 & ->). rewrite T2.
  repeat split; destruct d; cbn in *; try reflexivity; rewrite Q3; [now destruct (def m)|now destruct (car m)].
Qed.
Lemma purge_keeps : forall m, (forall a, record m a = 0) ->
  (forall cov c, covered m = Some cov -> In c (bounds (car m) ++ bounds (def m)) -> cov (b_elem c) (face_number (b_dim c) (b_sign c)) = false) ->
  n_dim (purge m) = n_dim m /\ car (purge m) = car m /\ def (purge m) = def m.
Proof.
  intros m R C. unfold purge. destruct (covered m) as [cov|] eqn:E; [|now repeat split].
  destruct (purge_connections_keeps false m R) as (N1 & C1 & R1 & T1 & O1). { intros cov' c E' I. rewrite E in E'. injection E' as <-. apply (C cov c eq_refl). apply in_or_app. now left. }
  set (m1 := purge_connections false m) in *. clearbody m1. cbn in T1, O1.
  destruct (purge_connections_keeps true m1) as (N2 & C2 & R2 & T2 & O2). { intros a. now rewrite R1. } { intros cov' c E' I. cbn in I. rewrite O1 in I. apply (C cov'); [congruence|]. apply in_or_app. now right. }
  set (m2 := purge_connections true m1) in *. clearbody m2. cbn in T2, O2.
  assert (RR : forall a, record m2 a = 0) by (intros; rewrite R2, R1; apply R).
  unfold purge_elems. cbn. rewrite !filter_all by (intros; now rewrite RR). rewrite N2, N1, T2, O2, T1, O1. split; [reflexivity|]. split; [now destruct (car m)|now destruct (def m)].
Qed.
