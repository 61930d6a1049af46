(** Histories of calls and [connect_rest]. *)
From Coq Require Import ZArith List Bool Reals Permutation Lia.
From Verif Require Import Outcome Math_Model ListUtil Loop Connection_Model Mesh_Model Mesh_Spec Mesh_Proofs Mesh_Proofs2 Mesh_Proofs3 Mesh_Proofs4.
Import ListNotations.
Local Open Scope Z_scope.
Local Arguments face_dec : simpl never.
Local Arguments i_face : simpl never.
Local Arguments Nat.ltb : simpl never.
Local Arguments Nat.leb : simpl never.
Local Arguments face_number : simpl never.

(** ** pointers of faces *)
Definition ptr_ok (m : mesh) : Prop := forall a i s, faces m a i = Some s <-> In ((a, i), s) (ends m).
Definition once (m : mesh) : Prop := forall f, (uses m f <= 1)%nat.
Lemma once_nodup : forall m, once m -> NoDup (map fst (ends m)).
Proof. intros m O. apply (NoDup_count_occ face_dec). exact O. Qed.
Lemma grows_ptr : forall m m' new, grows m m' new -> once m' -> ptr_ok m -> ptr_ok m'.
Proof.
  intros m m' new (_ & P & F & U) O K a i s. apply once_nodup in O. rewrite (Permutation_map fst P), map_app in O. apply nodup_app in O. destruct O as (N & _ & D).
  split.
  - intros E. apply (Permutation_in _ (Permutation_sym P)), in_or_app. destruct (in_dec face_dec (a, i) (map fst new)) as [I|I].
    + left. apply in_map_iff in I. destruct I as ([f s'] & E' & I). cbn in E'. subst f. rewrite (F N _ _ _ I) in E. injection E as <-. exact I.
    + right. rewrite U in E by exact I. now apply K.
  - intros I. apply (Permutation_in _ P), in_app_or in I. destruct I as [I|I]; [now apply F|]. rewrite U; [now apply K|]. intros J. apply (D _ J). now apply (in_map fst) in I.
Qed.
Lemma shrinks_ptr : forall m m' old, shrinks m m' old -> once m -> ptr_ok m -> ptr_ok m'.
Proof.
  intros m m' old (_ & P & F & U) O K a i s. apply once_nodup in O. rewrite (Permutation_map fst P), map_app in O. apply nodup_app in O. destruct O as (_ & _ & D).
  split.
  - intros E. destruct (in_dec face_dec (a, i) (map fst old)) as [I|I]; [rewrite F in E by exact I; discriminate|]. rewrite U in E by exact I. apply K in E.
    apply (Permutation_in _ P), in_app_or in E. destruct E as [E|E]; [|exact E]. exfalso. apply I. now apply (in_map fst) in E.
  - intros I. assert (N : ~ In (a, i) (map fst old)) by (intros J; apply (D _ J); now apply (in_map fst) in I). rewrite U by exact N. apply K.
    apply (Permutation_in _ (Permutation_sym P)), in_or_app. now right.
Qed.

Definition good_step (m m' : mesh) : Prop := wf m' /\ (once m -> once m' -> ptr_ok m -> ptr_ok m').
(** [r] is undefined, refused with a well-formed mesh, or a good step *)
Definition good (m : mesh) {A} (r : result A) : Prop := match r with Undefined => True | Refused m' => wf m' | Done m' _ => good_step m m' end.

Lemma good_grows : forall m m' new, wf m' -> grows m m' new -> good_step m m'.
Proof. intros m m' new W G. split; [exact W|]. intros _ O K. now apply (grows_ptr m m' new). Qed.
Lemma wf_same : forall m m', wf m -> n_dim m' = n_dim m -> car m' = car m -> def m' = def m -> wf m'.
Proof.
  intros m m' W N C D. destruct W as [W1 W2 W3 W4]. split; rewrite ?N, ?C, ?D; auto. intros f s. unfold ends, elements. rewrite C, D. apply W4.
Qed.
Lemma good_same : forall m m', wf m -> n_dim m' = n_dim m -> car m' = car m -> def m' = def m -> faces m' = faces m -> good_step m m'.
Proof. intros m m' W N C D F. split; [now apply (wf_same m)|]. intros _ _ K a i s. unfold ends. rewrite F, C, D. apply K. Qed.

(** ** the operations *)
Lemma wf_new : forall nd cov, (1 <= nd <= 3)%nat -> wf (new_mesh nd cov) /\ ptr_ok (new_mesh nd cov).
Proof.
  intros nd cov N. assert (T : forall d, wf_type nd d empty_type).
  { intros d. split; [reflexivity|intros c []| |intros c []|constructor|intros e []|intros _ e []]. intros [|[|[|k]]] c H; cbn; try lia; intros []. }
  split; [split; cbn; auto; intros f s []|]. intros a i s. cbn. split; [discriminate|intros []].
Qed.

Lemma elements_in : forall m d sn, In (d, sn) (elements m) <-> In sn (map fst (elems (of_type d m))).
Proof.
  intros m d sn. unfold elements, addrs. rewrite in_app_iff, !in_map_iff. split.
  - intros [(e & E & I)|(e & E & I)]; injection E as <- <-; exists e; auto.
  - intros (e & <- & I). destruct d; [right|left]; eauto.
Qed.
Lemma add_element_good : forall d l p m, wf m -> good m (ignore (add_element d l p m)).
Proof.
  intros d l p m W. unfold ignore, add_element. cbn [then_]. set (a := (d, next_sn (of_type d m))). pose proof (wf_of m W d) as WT.
  match goal with |- good m (Done ?x tt) => set (m' := x) end. set (t := with_elems (next_sn (of_type d m) + 1) (elems (of_type d m) ++ [(next_sn (of_type d m), mk_element l p [])]) (of_type d m)).
  assert (T1 : of_type d m' = t) by now destruct d. assert (T2 : of_type (negb d) m' = of_type (negb d) m) by now destruct d.
  assert (E : forall b, In b (elements m) -> In b (elements m')).
  { intros [d' sn]. rewrite !elements_in. destruct (bool_dec d' d) as [->|X].
    - rewrite T1. cbn [t with_elems elems]. rewrite map_app. intros I. apply in_or_app. now left.
    - replace d' with (negb d) by (destruct d, d'; cbn; congruence || reflexivity). now rewrite T2. }
  assert (NE : ~ In a (elements m)).
  { unfold a. rewrite elements_in. intros I. apply in_map_iff in I. destruct I as (e & E' & I). apply (wt_next _ _ _ WT) in I. lia. }
  assert (EN : ends m' = ends m) by (unfold ends; destruct d; reflexivity).
  assert (WT' : forall d', wf_type (n_dim m') d' (of_type d' m')).
  { intros d'. destruct (bool_dec d' d) as [->|X].
    - rewrite T1. split; cbn; try apply WT.
      + rewrite map_app. apply (Permutation_NoDup (l := next_sn (of_type d m) :: map fst (elems (of_type d m)))); [apply Permutation_cons_append|].
        constructor; [|apply WT]. intros I. apply in_map_iff in I. destruct I as (e & E' & I). apply (wt_next _ _ _ WT) in I. lia.
      + intros e I. apply in_app_or in I. destruct I as [I|[<-|[]]]; [apply (wt_next _ _ _ WT) in I; lia|cbn; lia].
      + intros D e I. apply in_app_or in I. destruct I as [I|[<-|[]]]; [now apply (wt_warp _ _ _ WT)|reflexivity].
    - replace d' with (negb d) by (destruct d, d'; cbn; congruence || reflexivity). rewrite T2. apply (wf_of m W). }
  split.
  - split; [apply W|apply (WT' false)|apply (WT' true)|]. intros f s. rewrite EN. intros I. apply E. now apply (wf_in _ W f s).
  - intros _ _ K b i s. rewrite EN. cbn [m' faces with_record with_face_record with_faces with_type]. fold a. destruct (addr_eqb_spec b a) as [->|X]; [|apply K].
    split; [discriminate|]. intros I. exfalso. apply NE. exact (wf_in _ W _ _ I).
Qed.

Lemma at_fst : forall m d level sn a, at_ m d level sn = Some a -> fst a = d.
Proof. intros m d level sn a. unfold at_. destruct (find _ _); [|discriminate]. destruct (_ =? level); [|discriminate]. intros H. now injection H as <-. Qed.
Lemma connect_cartesian_good : forall l a b i d0 d1 m, wf m -> good m (connect_cartesian l a b i d0 d1 m).
Proof.
  intros l a b i d0 d1 m W. unfold connect_cartesian. destruct (at_ m d0 l a) eqn:A0; [|exact W]. destruct (at_ m d1 l b) eqn:A1; [|exact W].
  destruct (new_con_spec false a0 a1 (cart_to_dir i) m W (at_in _ _ _ _ _ A0) (at_in _ _ _ _ _ A1) eq_refl) as [->|(m' & -> & W' & G)]; [exact Logic.I|]. exact (good_grows _ _ _ W' G).
Qed.
Lemma connect_deformed_good : forall l a b d m, wf m -> good m (connect_deformed l a b d m).
Proof.
  intros l a b d m W. unfold connect_deformed. destruct (_ && _)%bool; [exact W|]. destruct (at_ m true l a) eqn:A0; [|exact W]. destruct (at_ m true l b) eqn:A1; [|exact W].
  destruct (new_con_spec true a0 a1 d m W (at_in _ _ _ _ _ A0) (at_in _ _ _ _ _ A1) (conj (at_fst _ _ _ _ _ A0) (at_fst _ _ _ _ _ A1))) as [->|(m' & -> & W' & G)]; [exact Logic.I|]. exact (good_grows _ _ _ W' G).
Qed.
Lemma find_fine_in : forall m level n sns defs l, find_fine m level n sns defs = Ok l -> length l = n /\ (forall a, In a l -> In a (elements m)) /\ ((forall d, In d defs -> d = true) -> forall a, In a l -> fst a = true).
Proof.
  intros m level n. induction n as [|n IH]; intros sns defs l; cbn.
  - intros H. injection H as <-. split; [reflexivity|split; [intros a []|intros _ a []]].
  - destruct sns as [|sn sns]; [discriminate|]. destruct defs as [|d defs]; [discriminate|]. destruct (at_ m d level sn) as [a|] eqn:A; [|discriminate].
    destruct (find_fine m level n sns defs) as [l'| | |] eqn:F; try discriminate. cbn. intros H. injection H as <-. destruct (IH _ _ _ F) as (L & I & T).
    split; [cbn; lia|]. split; [intros b [<-|B]; [now apply (at_in m d level sn)|auto]|]. intros D b [<-|B]; [rewrite (at_fst _ _ _ _ _ A); apply D; now left|]. apply T; [|exact B]. intros d' D'. apply D. now right.
Qed.
Lemma new_ref_good : forall (d : bool) slot (coarse : addr) (fine : list addr) dr rev s0 s1 m, wf m -> In coarse (elements m) -> (forall a, In a fine -> In a (elements m)) ->
  (forall r, refined_connection (n_dim m) dr rev [s0; s1] (length fine) = Ok r -> n_fine slot = length fine) ->
  (if d then fst coarse = true /\ (forall a, In a fine -> fst a = true) /\ rev = false else dr = cart_to_dir (dim0 dr) /\ s0 = false /\ s1 = false) ->
  good m (new_ref d slot coarse fine dr rev [s0; s1] m).
Proof.
  intros d slot coarse fine dr rev s0 s1 m W IC IF NF KD. destruct (new_ref_spec d slot coarse fine dr rev s0 s1 m W IC IF NF KD) as [->|[(f & ->)|(m' & l & -> & W' & G)]]; [exact Logic.I| |].
  - apply (wf_same m); auto.
  - exact (good_grows _ _ _ W' G).
Qed.
Lemma connect_hanging_good : forall l c f d cd fd s0 s1 m, wf m -> good m (connect_hanging l c f d cd fd [s0; s1] m).
Proof.
  intros l c f d cd fd s0 s1 m W. pose proof (wf_dim _ W) as ND. unfold connect_hanging. destruct (fold_left _ _ _).
  - destruct (at_ m cd l c) as [a|] eqn:A; [|exact W]. destruct (find_fine _ _ _ _ _) as [fine| | |] eqn:F; try exact Logic.I; [|exact W].
    destruct (_ || _)%bool; [exact W|]. apply find_fine_in in F. destruct F as (L & I & _). apply new_ref_good; auto; [now apply (at_in _ _ _ _ _ A)|].
    intros _ _. rewrite L. assert (n_dim m = 1 \/ n_dim m = 2 \/ n_dim m = 3)%nat as [-> | [-> | ->]] by lia; reflexivity.
  - destruct (at_ m true l c) as [a|] eqn:A; [|exact W]. destruct (find_fine _ _ _ _ _) as [fine| | |] eqn:F; try exact Logic.I; [|exact W].
    destruct (log_int 2 (Z.of_nat (length f))) as [slot| | |] eqn:LI; try exact Logic.I. apply find_fine_in in F. destruct F as (L & I & T).
    apply new_ref_good; auto; [now apply (at_in _ _ _ _ _ A)| |split; [exact (at_fst _ _ _ _ _ A)|split; [|reflexivity]; apply T; intros d' D'; apply in_map_iff in D'; now destruct D' as (? & <- & _)]].
    intros r R. apply fine_count_cases in R; [|exact ND]. rewrite <- L in LI.
    destruct R as [R|[R|R]]; rewrite R in *; vm_compute in LI; injection LI as <-; reflexivity.
Qed.
Lemma connect_boundary_good : forall l d sn i s bc m, wf m -> good m (connect_boundary l d sn i s bc m).
Proof.
  intros l d sn i s bc m W. unfold connect_boundary. destruct (_ <? _); [|exact W]. destruct (at_ m d l sn) as [a|] eqn:A; [|exact W].
  destruct (Nat.lt_ge_cases i 3) as [B|B]; [rewrite new_bound_eq by exact B|rewrite new_bound_undefined by exact B; exact Logic.I].
  destruct (add_bound_spec d (mk_bound (next_id m) a i s bc) m W (at_in _ _ _ _ _ A) B (at_fst _ _ _ _ _ A)) as [W' G]. exact (good_grows _ _ _ W' G).
Qed.

(** *** purge *)
Lemma purge_elems_types : forall d m, of_type d (purge_elems d m) = with_elems (next_sn (of_type d m)) (filter (fun e => record m (d, fst e) =? 0) (elems (of_type d m))) (of_type d m)
  /\ of_type (negb d) (purge_elems d m) = of_type (negb d) m /\ record (purge_elems d m) = record m /\ n_dim (purge_elems d m) = n_dim m /\ faces (purge_elems d m) = faces m
  /\ ends (purge_elems d m) = ends m.
Proof. intros [|] m; repeat split. Qed.
Lemma filter_map_sn : forall (d : bool) (r : addr -> Z) (l : list (Z * element)),
  map (fun e => (d, fst e)) (filter (fun e => r (d, fst e) =? 0) l) = filter (fun a => r a =? 0) (map (fun e => (d, fst e)) l).
Proof. intros d r l. induction l as [|e l IH]; cbn; [reflexivity|]. destruct (r (d, fst e) =? 0); cbn; now rewrite IH. Qed.
Lemma NoDup_filter_map : forall A B (g : A -> B) p l, NoDup (map g l) -> NoDup (map g (filter p l)).
Proof.
  intros A B g p l. induction l as [|x l IH]; cbn; intros N; [constructor|]. apply NoDup_cons_iff in N. destruct N as [N N']. destruct (p x); cbn; [|auto].
  constructor; [|auto]. intros I. apply N. apply in_map_iff in I. destruct I as (y & E & I). apply filter_In in I. apply in_map_iff. exists y. tauto.
Qed.

Lemma purge_spec : forall m, wf m -> covered m <> None -> let m' := purge m in
  wf m' /\ elements m' = filter (fun a => record m a =? 0) (elements m)
  /\ (exists m1 old, shrinks m m1 old /\ ends m' = ends m1 /\ faces m' = faces m1)
  /\ (forall f s, In (f, s) (ends m') -> record m (fst f) = 0).
Proof.
  intros m W C. unfold purge. destruct (covered m) as [cov|]; [|congruence]. cbn zeta. clear C.
  destruct (purge_connections_spec false m W) as (W1 & (o1 & S1) & R1 & _ & _ & Z1). set (m1 := purge_connections false m) in *.
  destruct (purge_connections_spec true m1 W1) as (W2 & (o2 & S2) & R2 & _ & O2 & Z2). set (m2 := purge_connections true m1) in *. cbn [negb of_type] in O2.
  clearbody m2. clearbody m1.
  destruct (purge_elems_types false m2) as (A1 & A2 & A3 & A4 & A5 & A6). destruct (purge_elems_types true (purge_elems false m2)) as (B1 & B2 & B3 & B4 & B5 & B6).
  set (m3 := purge_elems false m2) in *. set (m4 := purge_elems true m3) in *. clearbody m4. clearbody m3. cbn [negb] in *.
  pose proof (shrinks_trans _ _ _ _ _ S1 S2) as S. destruct S as (SE & SP & SF & SU).
  assert (RM : record m2 = record m) by congruence.
  assert (EL : elements m4 = filter (fun a => record m a =? 0) (elements m)).
  { rewrite <- (same_elems_elements _ _ SE). unfold elements, addrs. rewrite filter_app. f_equal.
    - change (car m4) with (of_type false m4). rewrite B2, A1. cbn [with_elems elems]. rewrite RM. apply (filter_map_sn false).
    - change (def m4) with (of_type true m4). rewrite B1, A3, A2. cbn [with_elems elems]. rewrite RM. apply (filter_map_sn true). }
  assert (ZR : forall f s, In (f, s) (ends m4) -> record m (fst f) = 0).
  { intros f s. rewrite B6, A6. intros I. apply (Permutation_in _ (ends_of false m2)) in I. apply in_app_or in I. destruct I as [I|I].
    - cbn [of_type] in I. rewrite O2 in I. now apply (Z1 f s).
    - rewrite <- R1. now apply (Z2 f s). }
  split; [|split; [exact EL|split; [|exact ZR]]].
  - assert (WT : forall d, wf_type (n_dim m4) d (of_type d m4)).
    { intros d. rewrite B4, A4. pose proof (wf_of m2 W2 d) as T. destruct d; [rewrite B1, A2|rewrite B2, A1]; split; cbn; try apply T; try (apply NoDup_filter_map, T); try (intros e I; apply filter_In in I; now apply T); intros D e I; apply filter_In in I; now apply T. }
    split; [rewrite B4, A4; apply W2|apply (WT false)|apply (WT true)|].
    intros f s I. rewrite EL. apply filter_In. split; [|apply Z.eqb_eq; now apply (ZR f s)]. rewrite B6, A6 in I. rewrite <- (same_elems_elements _ _ SE). exact (wf_in _ W2 f s I).
  - exists m2, (o1 ++ o2). rewrite B6, A6, B5, A5. split; [exact (shrinks_trans _ _ _ _ _ S1 S2)|split; reflexivity].
Qed.
Lemma purge_good : forall m, wf m -> good_step m (purge m).
Proof.
  intros m W. destruct (covered m) as [cov|] eqn:C.
  - destruct (purge_spec m W) as (W' & _ & (m1 & old & S & E & F) & _); [congruence|]. split; [exact W'|]. intros O _ K. pose proof (shrinks_ptr _ _ _ S O K) as K'.
    intros a i s. rewrite E, F. apply K'.
  - unfold purge. rewrite C. now apply good_same.
Qed.
