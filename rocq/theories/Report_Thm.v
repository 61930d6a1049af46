(** Theorems about [Iteration_status]. *)
From Coq Require Import Ascii String List Arith Lia.
From Verif Require Import Outcome Loop Report_Model Report_Spec.
Import ListNotations.
Local Open Scope list_scope.
Local Notation length := List.length.

Lemma width_spec l : number_width l <= width l /\ (forall x, In x (labels l) -> length x <= width l) /\ forall b, number_width l <= b -> (forall x, In x (labels l) -> length x <= b) -> width l <= b.
Proof.
  unfold width. generalize (number_width l). induction (labels l) as [|x xs IH]; intros w; cbn [fold_left].
  - split; [lia|]. split; [intros ? []|auto].
  - destruct (IH (Nat.max w (length x))) as (A & B & C). split; [lia|]. split; [intros y [<-|Y]; [lia|auto]|]. intros b H K. apply C; [|intros y Y; apply K; now right]. specialize (K x (or_introl eq_refl)). lia.
Qed.
Lemma delete_app l a s : length s = length (sep l) -> delete_separator l (a ++ s) = Ok a.
Proof.
  unfold delete_separator. intros E. rewrite <- E. clear E. generalize 0. induction s as [|c s IH] using rev_ind; intros n; [rewrite app_nil_r; reflexivity|].
  rewrite app_length. cbn [length]. rewrite Nat.add_1_r. cbn [seq ofold]. unfold pop_back at 1. rewrite app_assoc. destruct ((a ++ s) ++ [c]) eqn:D; [destruct (a ++ s); discriminate|]. rewrite <- D. cbn [bind]. rewrite removelast_last. apply IH.
Qed.
Lemma fold_cells l xs a : fold_left (fun h x => h ++ format l x) xs a = a ++ concat (map (format l) xs).
Proof. revert a; induction xs as [|x xs IH]; intros a; cbn [fold_left map concat]; [now rewrite app_nil_r|]. rewrite IH, app_assoc. reflexivity. Qed.
Lemma concat_join l xs : xs <> [] -> concat (map (format l) xs) = join (sep l) (map (fun x => firstn 99 (printed (width l) x)) xs) ++ sep l.
Proof.
  induction xs as [|x xs IH]; [contradiction|]. intros _. destruct xs as [|y xs]; [cbn; now rewrite app_nil_r|].
  change (concat (map (format l) (x :: y :: xs))) with (format l x ++ concat (map (format l) (y :: xs))). rewrite IH by discriminate. unfold format at 1. cbn [map join]. rewrite <- !app_assoc. reflexivity.
Qed.
Lemma line l xs : delete_separator l (fold_left (fun h x => h ++ format l x) xs []) = match xs with [] => delete_separator l [] | _ => Ok (join (sep l) (map (fun x => firstn 99 (printed (width l) x)) xs)) end.
Proof. rewrite fold_cells. cbn [app]. destruct xs as [|x xs]; [reflexivity|]. rewrite concat_join by discriminate. now rewrite delete_app. Qed.
Lemma cell_justified l x : length x <= width l <= 99 -> justified (width l) x (firstn 99 (printed (width l) x)).
Proof.
  intros [A B]. unfold justified, printed. assert (L : length (repeat blank (width l - length x) ++ x) = width l) by (rewrite app_length, repeat_length; lia). rewrite firstn_all2 by lia. split; [exact L|]. eexists. reflexivity.
Qed.

(** C121. The header and the report are the labels and the values in columns of equal width with the separator between them: column [i] starts at the
    same character in both. *)
Theorem report_columns : forall l values, labels l <> [] -> length values = length (labels l) -> width l <= 99 -> (forall v, In v values -> length v <= width l) ->
  exists h r, header l = Ok h /\ report l values = Ok r /\ length h = length r /\
  (exists ch cr, h = join (sep l) ch /\ r = join (sep l) cr /\ Forall2 (justified (width l)) (labels l) ch /\ Forall2 (justified (width l)) values cr) /\
  forall i, i < length values ->
    justified (width l) (nth i (labels l) []) (slice (i * (width l + length (sep l))) (width l) h) /\ justified (width l) (nth i values []) (slice (i * (width l + length (sep l))) (width l) r).
Proof.
  intros l values NE LEN W V. unfold header, report, value_string. rewrite !line. destruct (labels l) as [|x xs] eqn:EL; [contradiction|]. destruct values as [|y ys]; [discriminate|]. rewrite <- EL in *.
  set (cell := fun x => firstn 99 (printed (width l) x)). assert (LB : forall x, In x (labels l) -> length x <= width l) by apply width_spec.
  assert (J : forall zs, (forall z, In z zs -> length z <= width l) -> Forall2 (justified (width l)) zs (map cell zs)).
  { induction zs as [|z zs IH]; intros H; cbn [map]; constructor; [apply cell_justified; split; [apply H; now left|exact W]|apply IH; intros; apply H; now right]. }
  assert (SL : forall zs i, (forall z, In z zs -> length z <= width l) -> i < length zs -> slice (i * (width l + length (sep l))) (width l) (join (sep l) (map cell zs)) = cell (nth i zs [])).
  { induction zs as [|z zs IH]; intros i H I; [cbn in I; lia|]. assert (CL : length (cell z) = width l) by (apply cell_justified; split; [apply H; now left|exact W]).
    assert (HD : forall rest, slice 0 (width l) (cell z ++ rest) = cell z) by (intros rest; unfold slice; cbn [skipn]; rewrite <- CL, firstn_app, firstn_all, Nat.sub_diag; cbn; apply app_nil_r).
    destruct i as [|i]; cbn [nth].
    - cbn [Nat.mul]. destruct zs as [|z' zs]; cbn [map join]; [rewrite <- (app_nil_r (cell z)) at 1; apply HD|apply HD].
    - destruct zs as [|z' zs]; [cbn in I; lia|]. change (join (sep l) (map cell (z :: z' :: zs))) with (cell z ++ sep l ++ join (sep l) (map cell (z' :: zs))). rewrite app_assoc.
      rewrite <- (IH i) by (try (intros; apply H; now right); cbn in I |- *; lia). unfold slice. f_equal. cbn [Nat.mul]. assert (LN : length (cell z ++ sep l) = width l + length (sep l)) by (rewrite app_length, CL; reflexivity). rewrite <- LN.
      rewrite skipn_app. rewrite skipn_all2 by lia. cbn [app]. f_equal. lia. }
  assert (LJ : forall zs zs', length zs = length zs' -> (forall z, In z zs -> length z <= width l) -> (forall z, In z zs' -> length z <= width l) -> length (join (sep l) (map cell zs)) = length (join (sep l) (map cell zs'))).
  { induction zs as [|z zs IH]; intros [|z' zs'] E H H'; try discriminate; [reflexivity|].
    assert (length (cell z) = width l) by (apply cell_justified; split; [apply H; now left|exact W]). assert (length (cell z') = width l) by (apply cell_justified; split; [apply H'; now left|exact W]).
    specialize (IH zs' ltac:(cbn in E; lia) ltac:(intros; apply H; now right) ltac:(intros; apply H'; now right)). destruct zs as [|? ?], zs' as [|? ?]; try discriminate; cbn [map join] in *; [lia|]. rewrite !app_length in *. lia. }
  exists (join (sep l) (map cell (labels l))), (join (sep l) (map cell (y :: ys))). split; [rewrite EL; reflexivity|]. split; [reflexivity|]. split; [apply LJ; auto|].
  split; [exists (map cell (labels l)), (map cell (y :: ys)); auto|]. intros i I. rewrite !SL by (auto; lia). split; (apply cell_justified; split; [|exact W]); [apply LB|apply V]; apply nth_In; lia.
Qed.
Print Assumptions report_columns.
(** The width is the greatest of [number_width] and the lengths of the labels, so that a label is always shown in full *)
Theorem report_width : forall l, number_width l <= width l /\ (forall x, In x (labels l) -> length x <= width l) /\ (width l = number_width l \/ exists x, In x (labels l) /\ width l = length x).
Proof.
  intros l. destruct (width_spec l) as (A & B & _). split; [exact A|]. split; [exact B|]. clear. unfold width. generalize (number_width l). induction (labels l) as [|x xs IH]; intros w; cbn [fold_left]; [auto|].
  destruct (IH (Nat.max w (length x))) as [E|(y & Y & E)]; [|right; exists y; split; [now right|exact E]]. rewrite E. destruct (Nat.max_spec w (length x)) as [[_ ->]|[_ ->]]; [right; exists x; split; [now left|reflexivity]|auto].
Qed.
Print Assumptions report_width.
(** without columns the separator is deleted from nothing: undefined behaviour *)
Theorem report_empty : forall l, labels l = [] -> sep l <> [] -> header l = Ub.
Proof. intros l E S. unfold header. rewrite E. cbn [fold_left]. unfold delete_separator. destruct (sep l); [contradiction|]. reflexivity. Qed.
Print Assumptions report_empty.

(** [Iteration_status] itself: each quantity stands below its label, in columns of 15 characters that start every 17 characters *)
Definition below (h r : text) (i : nat) (label : string) (value : text) : Prop := justified 15 (list_ascii_of_string label) (slice (17 * i) 15 h) /\ justified 15 value (slice (17 * i) 15 r).
Theorem report_default : forall s, (forall v, In v (columns s) -> length v <= 15) -> exists h r, header default = Ok h /\ report default (columns s) = Ok r /\ length h = 151 /\ length r = 151 /\
  below h r 0 "iteration" (iteration s) /\ below h r 1 "momtm resid" (mmtm_res s) /\ below h r 2 "mass resid" (mass_res s) /\ below h r 3 "energy resid" (ener_res s) /\ below h r 4 "av adv resid" (adv_res s) /\
  below h r 5 "av diff resid" (diff_res s) /\ below h r 6 "flow time" (flow_time s) /\ below h r 7 "time step" (time_step s) /\ below h r 8 "fix adm iters" (fix_admis_iters s).
Proof.
  intros s V. assert (W : width default = 15) by reflexivity. destruct (report_columns default (columns s)) as (h & r & H & R & L & _ & C); [discriminate|reflexivity|rewrite W; lia|rewrite W; exact V|]. rewrite W in C.
  exists h, r. split; [exact H|]. split; [exact R|]. assert (LH : length h = 151) by (injection H as <-; reflexivity). split; [exact LH|]. split; [congruence|].
  repeat split; try (apply (C 0); cbn; lia); try (apply (C 1); cbn; lia); try (apply (C 2); cbn; lia); try (apply (C 3); cbn; lia); try (apply (C 4); cbn; lia); try (apply (C 5); cbn; lia); try (apply (C 6); cbn; lia); try (apply (C 7); cbn; lia); try (apply (C 8); cbn; lia).
Qed.
Print Assumptions report_default.

Definition ex_layout : layout := {| sep := [","; " "]%char; number_width := 3; labels := [["a"]; ["b"; "c"]]%char |}.
Example report_columns_example : header ex_layout = Ok [" "; " "; "a"; ","; " "; " "; "b"; "c"]%char /\ report ex_layout [["4"; "2"]; ["1"; "e"; "9"]]%char = Ok [" "; "4"; "2"; ","; " "; "1"; "e"; "9"]%char.
Proof. split; reflexivity. Qed.
Example report_default_example : let c := list_ascii_of_string in
  let s := {| flow_time := c "1.50000000e-03"; mmtm_res := c "2.00000000e+00"; mass_res := c "3.00000000e+00"; ener_res := c "nan"; adv_res := c "0.00000000e+00"; diff_res := c "-0.00000000e+00"; time_step := c "1.00000000e-05"; iteration := c "150"; fix_admis_iters := c "0" |}%string in
  (forall v, In v (columns s) -> length v <= 15) /\ exists r, report default (columns s) = Ok r /\ slice 34 15 r = c " 3.00000000e+00"%string.
Proof. split; [intros v I; repeat (destruct I as [<-|I]; [cbn; lia|]); destruct I|]. eexists. split; reflexivity. Qed.
(** a number that is too long for its column moves the columns after it *)
Example report_too_wide_example : exists r, report ex_layout [["4"; "2"; "4"; "2"]; ["1"]]%char = Ok r /\ List.length r = 9.
Proof. eexists. split; reflexivity. Qed.
