From Coq Require Import List Arith Lia Ascii Bool.
From Verif Require Import Outcome Expr_Model Expr_Spec.
Import ListNotations.

Lemma is_end_spec c : is_end c = true <-> separator c.
Proof. unfold is_end, separator. rewrite orb_true_iff, !Ascii.eqb_eq. reflexivity. Qed.
Lemma isspace_plain c : plain c -> exists b, isspace c = Ok b /\ (b = true <-> blank c).
Proof.
  unfold plain. intros P. unfold isspace. assert (E : (128 <=? nat_of_ascii c) = false) by (apply Nat.leb_gt; exact P). rewrite E. eexists. split; [reflexivity|].
  clear P. destruct c as [[] [] [] [] [] [] [] []]; try discriminate E; cbn; split; intros H; try discriminate; try reflexivity; try tauto; repeat (destruct H as [H|H]; [discriminate H|]); contradiction.
Qed.
Lemma blank_plain c : blank c -> plain c.
Proof. unfold plain. intros H. cbn in H. repeat (destruct H as [<-|H]; [cbn; lia|]). contradiction. Qed.
Lemma isspace_blank c : blank c -> isspace c = Ok true.
Proof. intros H. destruct (isspace_plain c (blank_plain c H)) as (b & -> & E). apply E in H. now rewrite H. Qed.
Lemma isspace_not c : plain c -> ~ blank c -> isspace c = Ok false.
Proof. intros P H. destruct (isspace_plain c P) as (b & -> & E). destruct b; [exfalso; apply H; now apply E|reflexivity]. Qed.

(** ** trimming *)
Lemma trim_front_blank a c u : Forall blank a -> plain c -> ~ blank c -> trim_front (a ++ c :: u) = Ok (c :: u).
Proof. intros A P N. induction A as [|x a X A IH]; cbn. - rewrite isspace_not by assumption. reflexivity. - rewrite isspace_blank by assumption. exact IH. Qed.
Lemma trim_front_all a : Forall blank a -> trim_front a = Ub.
Proof. intros A. induction A as [|x a X A IH]; [reflexivity|]. cbn. rewrite isspace_blank by assumption. exact IH. Qed.
Lemma trim_word a w b : Forall blank a -> word w -> Forall blank b -> (let! s := trim_front (a ++ w ++ b) in trim_back s) = Ok w.
Proof.
  intros A (c & d & u & v & E & E' & Pc & Nc & Pd & Nd) B. rewrite E at 1. cbn [app]. rewrite trim_front_blank by assumption. cbn [bind]. change (c :: u ++ b) with ((c :: u) ++ b). rewrite <- E. unfold trim_back. rewrite E', rev_app_distr, rev_app_distr. cbn [rev app].
  rewrite trim_front_blank; [|now apply Forall_rev|assumption..]. cbn [bind]. cbn [rev]. now rewrite rev_involutive.
Qed.
Lemma find_none p t : Forall (fun c => p c = false) t -> find p t = (t, []).
Proof. induction t as [|c t IH]; intros F; [reflexivity|]. inversion F; subst. cbn. rewrite H1. now rewrite IH. Qed.
Lemma find_some p a c t : Forall (fun c => p c = false) a -> p c = true -> find p (a ++ c :: t) = (a, c :: t).
Proof. intros F P. induction a as [|x a IH]; cbn; [now rewrite P|]. inversion F; subst. rewrite H1. now rewrite IH. Qed.
Lemma find_split p t : let '(a, b) := find p t in t = a ++ b /\ Forall (fun c => p c = false) a /\ match b with [] => True | c :: _ => p c = true end.
Proof.
  induction t as [|c t IH]; cbn; [auto|]. destruct (p c) eqn:P; [auto|]. destruct (find p t) as [a b]. destruct IH as (-> & F & H). auto.
Qed.
Lemma not_ends s : Forall (fun c => ~ separator c) s -> Forall (fun c => is_end c = false) s.
Proof. apply Forall_impl. intros c H. destruct (is_end c) eqn:E; [exfalso; apply H; now apply is_end_spec|reflexivity]. Qed.
Lemma not_equal s : ~ In "="%char s -> Forall (fun c => (c =? "=")%char = false) s.
Proof. intros H. apply Forall_forall. intros c I. apply Ascii.eqb_neq. intros ->. contradiction. Qed.
Lemma blank_not_equal a : Forall blank a -> ~ In "="%char a.
Proof. intros F I. rewrite Forall_forall in F. specialize (F _ I). cbn in F. repeat (destruct F as [F|F]; [discriminate|]). contradiction. Qed.
Definition side (right : bool) (p : list ascii * list ascii) : list ascii := if right then snd p else fst p.

(** one statement, with [k] for what follows *)
Definition one (statement : list ascii) (right : bool) (k : outcome (list (list ascii))) : outcome (list (list ascii)) :=
  let '(before, after) := find (fun c => c =? "=")%char statement in
  match after with [] => k | _ :: expr => let! side := trim_front (if right then expr else before) in let! side := trim_back side in let! sides := k in Ok (side :: sides) end.
Lemma one_proper s right k : proper s -> one (text_of s) right k = let! sides := k in Ok (map (side right) (assignments s) ++ sides).
Proof.
  intros (_ & P). unfold one. destruct s as [a name b c expr d|text]; cbn [text_of assignments map].
  - destruct P as (A & B & C & D & N & E & NE). replace (a ++ name ++ b ++ ["="%char] ++ c ++ expr ++ d) with ((a ++ name ++ b) ++ "="%char :: (c ++ expr ++ d)) by (rewrite <- !app_assoc; reflexivity).
    rewrite find_some; [|apply not_equal; rewrite !in_app_iff; intros [H|[H|H]]; [now apply (blank_not_equal a)|contradiction|now apply (blank_not_equal b)]|reflexivity].
    pose proof (trim_word (if right then c else a) (if right then expr else name) (if right then d else b) ltac:(now destruct right) ltac:(now destruct right) ltac:(now destruct right)) as T.
    replace (if right then c ++ expr ++ d else a ++ name ++ b) with ((if right then c else a) ++ (if right then expr else name) ++ (if right then d else b)) by now destruct right.
    unfold side. cbn [fst snd]. destruct (trim_front _) as [s| | |]; cbn [bind] in *; try discriminate. rewrite T. cbn [bind]. destruct right; reflexivity.
  - rewrite (find_none _ text) by now apply not_equal. destruct k; reflexivity.
Qed.
Lemma get_side_last fuel s right : Forall (fun c => ~ separator c) s -> (length s <= fuel) -> get_side fuel s right = one s right (Ok []).
Proof.
  intros P L. destruct s as [|x s]; [destruct fuel; reflexivity|]. destruct fuel as [|fuel]; [cbn in L; lia|]. cbn [get_side]. rewrite find_none by now apply not_ends. unfold one.
  destruct (find _ (x :: s)) as [before after]. cbn [tl]. destruct after; destruct fuel; reflexivity.
Qed.
Lemma get_side_cons fuel s c rest right : Forall (fun c => ~ separator c) s -> separator c -> get_side (S fuel) (s ++ c :: rest) right = one s right (get_side fuel rest right).
Proof.
  intros P C. assert (E : find is_end (s ++ c :: rest) = (s, c :: rest)) by (apply find_some; [now apply not_ends|now apply is_end_spec]).
  assert (NE : s ++ c :: rest <> []) by (destruct s; discriminate). destruct (s ++ c :: rest) as [|x r] eqn:X; [contradiction|]. rewrite <- X in *. cbn [get_side]. rewrite X in E |- *. rewrite E. unfold one. destruct (find _ s) as [before after]. reflexivity.
Qed.
Lemma sides l last : proper_code l last -> forall fuel right, length (code_of l last) <= fuel -> get_side fuel (code_of l last) right = Ok (map (side right) (all_assignments l last)).
Proof.
  intros (L & PL). unfold code_of, all_assignments. induction L as [|[s c] l [PS SC] L IH]; intros fuel right F; cbn [flat_map app fst snd] in *.
  - rewrite get_side_last; [|apply PL|exact F]. rewrite one_proper by exact PL. cbn [bind]. now rewrite app_nil_r.
  - rewrite <- !app_assoc in *. cbn [app] in *. rewrite app_length in F. cbn [length] in F. destruct fuel as [|fuel]; [lia|]. rewrite get_side_cons; [|apply PS|exact SC]. rewrite IH by lia. rewrite one_proper by exact PS. cbn [bind]. now rewrite <- map_app.
Qed.
Lemma existsb_in (p : ascii -> bool) c s : (forall x, p x = true <-> x = c) -> existsb p s = true <-> In c s.
Proof. intros H. rewrite existsb_exists. split; [intros (x & I & P); apply H in P; now subst|intros I; exists c; split; [exact I|now apply H]]. Qed.
Lemma parse_main l last : proper_code l last ->
  ((exists p, In p (all_assignments l last) /\ In "$"%char (fst p)) -> struct_expr (code_of l last) = Throw) /\
  ((forall p, In p (all_assignments l last) -> ~ In "$"%char (fst p)) -> struct_expr (code_of l last) = Ok (map fst (all_assignments l last), map snd (all_assignments l last))).
Proof.
  intros P. unfold struct_expr. rewrite !(sides l last P) by lia. cbn [bind]. change (map (side false)) with (map (@fst (list ascii) (list ascii))). change (map (side true)) with (map (@snd (list ascii) (list ascii))).
  assert (X : existsb (existsb (fun c => (c =? "$")%char)) (map fst (all_assignments l last)) = true <-> exists p, In p (all_assignments l last) /\ In "$"%char (fst p)).
  { rewrite existsb_exists. split.
    - intros (n & I & E). apply in_map_iff in I. destruct I as (p & <- & I). exists p. split; [exact I|]. apply (existsb_in (fun c => (c =? "$")%char)); [intros; apply Ascii.eqb_eq|exact E].
    - intros (p & I & E). exists (fst p). split; [now apply in_map|]. apply (existsb_in _ "$"%char); [intros; apply Ascii.eqb_eq|exact E]. }
  split; intros H.
  - apply X in H. now rewrite H.
  - destruct (existsb _ _); [|reflexivity]. destruct X as [X _]. destruct (X eq_refl) as (p & I & E). exfalso. now apply (H p).
Qed.

(** ** every code *)
Lemma blank_dec c : {blank c} + {~ blank c}. Proof. apply in_dec. apply Ascii.ascii_dec. Qed.
Lemma front_split s : Forall plain s -> Forall blank s \/ exists a c u, s = a ++ c :: u /\ Forall blank a /\ plain c /\ ~ blank c.
Proof.
  induction s as [|x s IH]; intros F; [left; constructor|]. inversion F; subst. destruct (blank_dec x) as [B|B].
  - destruct (IH H2) as [A|(a & c & u & -> & A & P & N)]; [left; now constructor|]. right. exists (x :: a), c, u. split; [reflexivity|]. split; [now constructor|auto].
  - right. exists [], x, s. auto.
Qed.
Lemma word_split s : Forall plain s -> Forall blank s \/ exists a w b, s = a ++ w ++ b /\ Forall blank a /\ word w /\ Forall blank b.
Proof.
  intros F. destruct (front_split s F) as [A|(a & c & u & -> & A & P & N)]; [now left|]. right. apply Forall_app in F. destruct F as [_ F].
  destruct (front_split (rev (c :: u)) (Forall_rev F)) as [B|(b & d & v & E & B & PD & ND)].
  - exfalso. apply N. apply (proj1 (Forall_forall _ _) B). rewrite <- in_rev. now left.
  - exists a. exists (rev v ++ [d]), (rev b). apply (f_equal (@rev ascii)) in E. rewrite rev_involutive, rev_app_distr in E. cbn [rev] in E.
    split; [now rewrite E|]. split; [exact A|]. split; [|now apply Forall_rev].
    destruct (rev v ++ [d]) as [|c' u'] eqn:W; [destruct (rev v); discriminate W|]. cbn in E. injection E as <- E. exists c, d, u', (rev v). rewrite W. auto 10.
Qed.
Definition neat (x : outcome (list (list ascii))) : Prop := match x with Ok _ | Ub => True | _ => False end.
Lemma trim_front_neat s : match trim_front s with Ok _ | Ub => True | _ => False end.
Proof. induction s as [|c s IH]; cbn; [exact I|]. unfold isspace. destruct (128 <=? nat_of_ascii c); [exact I|]. cbn [bind]. destruct (_ || _); [exact IH|exact I]. Qed.
Lemma one_neat s right k : neat k -> neat (one s right k).
Proof.
  intros K. unfold one. destruct (find _ s) as [before [|e after]]; [exact K|]. pose proof (trim_front_neat (if right then after else before)) as T. destruct (trim_front _) as [t| | |]; try exact T. cbn [bind]. unfold trim_back. pose proof (trim_front_neat (rev t)) as T'. destruct (trim_front (rev t)); try exact T'. cbn [bind]. destruct k; exact K.
Qed.
Lemma one_ub s right : one s right Ub = Ub.
Proof.
  unfold one. destruct (find _ s) as [before [|e after]]; [reflexivity|]. pose proof (trim_front_neat (if right then after else before)) as T. destruct (trim_front _) as [t| | |]; try reflexivity; try contradiction. cbn [bind]. unfold trim_back. pose proof (trim_front_neat (rev t)) as T'. destruct (trim_front (rev t)); try reflexivity; contradiction.
Qed.
(** a statement is proper, or a side of it is blank *)
Lemma statement_cases s : Forall plain s -> Forall (fun c => ~ separator c) s -> (exists p, proper p /\ s = text_of p) \/ exists right, forall k, one s right k = Ub.
Proof.
  intros F NS. pose proof (find_split (fun c => (c =? "=")%char) s) as H. unfold one. destruct (find _ s) as [before after]. destruct H as (E & NB & HA). destruct after as [|e expr].
  - left. exists (Other s). split; [|reflexivity]. split; [exact NS|]. rewrite app_nil_r in E. subst. intros I. rewrite Forall_forall in NB. specialize (NB _ I). cbv beta in NB. rewrite Ascii.eqb_refl in NB. discriminate.
  - apply Ascii.eqb_eq in HA. subst e. subst s. apply Forall_app in F. destruct F as [FB FE]. inversion FE as [|? ? _ FE']; subst.
    destruct (word_split before FB) as [B|(a & name & b & -> & A & N & B)]; [right; exists false; intros k; now rewrite trim_front_all|].
    destruct (word_split expr FE') as [D|(c & ex & d & -> & C & X & D)]; [right; exists true; intros k; now rewrite trim_front_all|].
    left. exists (Assign a name b c ex d). assert (TE : (a ++ name ++ b) ++ "="%char :: c ++ ex ++ d = text_of (Assign a name b c ex d)) by (cbn [text_of]; rewrite <- !app_assoc; reflexivity). split; [|exact TE]. split; [rewrite <- TE; exact NS|]. repeat (split; [assumption|]).
    intros I. rewrite Forall_forall in NB. specialize (NB "="%char). cbv beta in NB. rewrite Ascii.eqb_refl in NB. discriminate NB. rewrite !in_app_iff. auto.
Qed.
Lemma code_cases n code : length code <= n -> Forall plain code ->
  (exists l last, proper_code l last /\ code = code_of l last) \/
  ((forall right f, length code <= f -> neat (get_side f code right)) /\ exists right, forall f, length code <= f -> get_side f code right = Ub).
Proof.
  revert code. induction n as [|n IH]; intros code L F.
  - destruct code; [|cbn in L; lia]. left. exists [], (Other []). split; [|reflexivity]. split; [constructor|]. split; [constructor|auto].
  - pose proof (find_split is_end code) as H. destruct (find is_end code) as [s rest]. destruct H as (E & NE & HR).
    assert (NS : Forall (fun c => ~ separator c) s) by (revert NE; apply Forall_impl; intros c X Y; apply is_end_spec in Y; congruence).
    destruct rest as [|c rest].
    + rewrite app_nil_r in E. subst s. destruct (statement_cases code F NS) as [(p & P & ->)|(right & U)].
      * left. exists [], p. split; [split; [constructor|exact P]|reflexivity].
      * right. split; [intros r f FL; rewrite get_side_last by assumption; apply one_neat; exact I|]. exists right. intros f FL. rewrite get_side_last by assumption. apply U.
    + subst code. rewrite app_length in L. cbn [length] in L. apply is_end_spec in HR. apply Forall_app in F. destruct F as [FS FR]. inversion FR as [|? ? _ FR']; subst.
      assert (STEP : forall right f, length (s ++ c :: rest) <= f -> exists f', length rest <= f' /\ get_side f (s ++ c :: rest) right = one s right (get_side f' rest right)).
      { intros right f FL. rewrite app_length in FL. cbn [length] in FL. destruct f as [|f]; [lia|]. exists f. split; [lia|]. now apply get_side_cons. }
      destruct (statement_cases s FS NS) as [(p & P & ->)|(right & U)].
      * destruct (IH rest ltac:(lia) FR') as [(l & last & [PL PL'] & ->)|(NT & right & U)].
        -- left. exists ((p, c) :: l), last. split; [split; [constructor; auto|exact PL']|]. unfold code_of. cbn. now rewrite <- !app_assoc.
        -- right. split; [intros r f FL; destruct (STEP r f FL) as (f' & FL' & ->); apply one_neat; now apply NT|]. exists right. intros f FL. destruct (STEP right f FL) as (f' & FL' & ->). rewrite U by exact FL'. apply one_ub.
      * right. split; [|exists right; intros f FL; destruct (STEP right f FL) as (f' & FL' & ->); apply U].
        intros r f FL. destruct (STEP r f FL) as (f' & FL' & ->). apply one_neat. destruct (IH rest ltac:(lia) FR') as [(l & last & PC & ->)|(NT & _)]; [rewrite sides by assumption; exact I|now apply NT].
Qed.
Lemma every_main code : Forall plain code -> (exists l last, proper_code l last /\ code = code_of l last) \/ struct_expr code = Ub.
Proof.
  intros F. destruct (code_cases (length code) code (le_n _) F) as [H|(NT & right & U)]; [now left|]. right. unfold struct_expr. pose proof (NT false (length code) (le_n _)) as N0. destruct right.
  - destruct (get_side (length code) code false); cbn [bind]; try contradiction; [|reflexivity]. now rewrite U by lia.
  - now rewrite U by lia.
Qed.

(** ** evaluation *)
Lemma get_side_length fuel : forall rest l r, get_side fuel rest false = Ok l -> get_side fuel rest true = Ok r -> length l = length r.
Proof.
  induction fuel as [|fuel IH]; intros rest l r; destruct rest as [|x rest]; cbn [get_side]; try discriminate; try (intros [= <-] [= <-]; reflexivity).
  destruct (find is_end (x :: rest)) as [s t]. destruct (find _ s) as [before [|e after]]; [apply IH|].
  destruct (trim_front before) as [a| | |]; try discriminate. cbn [bind]. destruct (trim_back a) as [a'| | |]; try discriminate. cbn [bind]. destruct (trim_front after) as [b| | |]; try discriminate. cbn [bind]. destruct (trim_back b) as [b'| | |]; try discriminate. cbn [bind].
  destruct (get_side fuel (tl t) false) as [l'| | |] eqn:EL; try discriminate. destruct (get_side fuel (tl t) true) as [r'| | |] eqn:ER; try discriminate. cbn [bind]. intros [= <-] [= <-]. cbn [length]. f_equal. now apply (IH (tl t)).
Qed.
Lemma parse_length code names exprs : struct_expr code = Ok (names, exprs) -> length names = length exprs.
Proof.
  unfold struct_expr. destruct (get_side _ code false) as [l| | |] eqn:EL; try discriminate. destruct (get_side _ code true) as [r| | |] eqn:ER; try discriminate. cbn [bind]. destruct (existsb _ l); [discriminate|]. intros [= <- <-]. exact (get_side_length _ _ _ _ EL ER).
Qed.
Section Eval.
Context {I V : Type} (exec : list ascii -> I -> outcome I) (lookup : list ascii -> I -> option V).
Lemma eval_main names : forall exprs inter vals inter', length names = length exprs ->
  eval exec lookup names exprs inter = Ok (vals, inter') <->
  length vals = length names /\ exists state : nat -> I, state 0 = inter /\ state (length names) = inter' /\
    forall i name expr, nth_error names i = Some name -> nth_error exprs i = Some expr -> exec (name ++ "="%char :: expr) (state i) = Ok (state (S i)) /\ lookup name (state (S i)) = nth_error vals i.
Proof.
  induction names as [|name names IH]; intros exprs inter vals inter' L; destruct exprs as [|expr exprs]; try discriminate; cbn [eval app].
  - split.
    + intros [= <- <-]. split; [reflexivity|]. exists (fun _ => inter). split; [reflexivity|]. split; [reflexivity|]. intros i ? ? H. destruct i; discriminate.
    + intros (LV & state & E0 & E1 & _). destruct vals; [|discriminate]. cbn in E1. congruence.
  - injection L as L. split.
    + destruct (exec _ inter) as [i1| | |] eqn:EX; try discriminate. cbn [bind]. destruct (lookup name i1) as [val|] eqn:LK; try discriminate. destruct (eval exec lookup names exprs i1) as [[vs i2]| | |] eqn:EV; try discriminate. cbn [bind]. intros [= <- <-].
      apply (IH exprs i1 vs i2 L) in EV. destruct EV as (LV & state & E0 & E1 & ST). split; [cbn; now f_equal|]. exists (fun k => match k with O => inter | S k => state k end). split; [reflexivity|]. split; [exact E1|].
      intros [|i] nm ex H H'; cbn in H, H'; [injection H as <-; injection H' as <-; rewrite E0; auto|]. now apply ST.
    + intros (LV & state & E0 & E1 & ST). destruct vals as [|val vals]; [discriminate|]. injection LV as LV. destruct (ST 0 name expr eq_refl eq_refl) as (EX & LK). rewrite E0 in EX. rewrite EX. cbn [bind]. rewrite LK. cbn [nth_error].
      assert (EV : eval exec lookup names exprs (state 1) = Ok (vals, inter')).
      { apply IH; [exact L|]. split; [exact LV|]. exists (fun k => state (S k)). split; [reflexivity|]. split; [exact E1|]. intros i nm ex H H'. exact (ST (S i) nm ex H H'). }
      now rewrite EV.
Qed.
Lemma eval_no_ub names : forall exprs inter, length names = length exprs -> (forall s i, exec s i <> Ub) -> eval exec lookup names exprs inter <> Ub.
Proof.
  induction names as [|name names IH]; intros exprs inter L NU; destruct exprs as [|expr exprs]; try discriminate. injection L as L. cbn [eval]. pose proof (NU (name ++ ["="%char] ++ expr) inter) as N. destruct (exec _ inter) as [i1| | |]; cbn [bind]; try discriminate; [|contradiction].
  destruct (lookup name i1); [|discriminate]. pose proof (IH exprs i1 L NU) as H. destruct (eval exec lookup names exprs i1) as [[? ?]| | |]; cbn [bind]; try discriminate. contradiction.
Qed.
End Eval.
