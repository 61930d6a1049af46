(** C41, C58: tables of numbers in files. *)
From Coq Require Import List Arith Ascii Bool Lia.
Import ListNotations.
From Verif Require Import Csv_Model Csv_Spec Csv_Proofs.

(** C41: every nonempty rectangular table of entries that are numbers, with every line ended by a line break, is read exactly,
    row by row. What follows a blank line is ignored. [stod] is any reader of numbers that refuses the empty entry. *)
Theorem csv_table : forall V (stod : list ascii -> option V) cols table values fuel tail,
  0 < cols -> stod [] = None -> table <> [] -> rectangular cols table -> numbers stod table values -> length table <= fuel -> (tail = [] \/ exists rest, tail = "010"%char :: rest) ->
  read_csv stod fuel (text table ++ tail) = Some (Table (length table) cols (concat values)) /\ length (concat values) = length table * cols /\
  (forall r c, r < length table -> c < cols -> nth_error (concat values) (r * cols + c) = match nth_error values r with Some v => nth_error v c | None => None end).
Proof.
  intros V stod cols table values fuel tail C S0 NE RT N FU T. split; [|].
  - destruct table as [|row table]; [contradiction|]. rewrite (read_csv_table stod cols row table values fuel tail C S0 RT N FU).
    assert (E : exists s, getline (Stream tail true) [] = (s, [])). { destruct T as [->|[rest ->]]; unfold getline; cbn [good unread take_line]; [eauto|]. change ("010"%char) with LF. rewrite Ascii.eqb_refl. eauto. }
    destruct E as [s ->]. apply read_rows_nil.
  - clear NE FU T S0. assert (LV : Forall (fun v => length v = cols) values). { unfold numbers in N. induction N as [|row v table values E N IH]; [constructor|]. inversion RT as [|? ? [L _] RT']; subst. constructor; [symmetry; clear -E; induction E; cbn; congruence|now apply IH]. }
    assert (LT : length table = length values) by (clear -N; induction N; cbn; congruence). rewrite LT. clear N RT LT table. split.
    + induction LV as [|v values L LV IH]; [reflexivity|]. cbn [concat length]. rewrite app_length, IH, L. lia.
    + intros r c. revert r. induction LV as [|v values L LV IH]; intros r RL CL; [cbn in RL; lia|]. cbn [concat]. destruct r as [|r]; cbn [nth_error Nat.mul Nat.add].
      * rewrite nth_error_app1 by lia. reflexivity.
      * rewrite nth_error_app2 by lia. replace (cols + r * cols + c - length v) with (r * cols + c) by lia. apply IH; [cbn in RL; lia|exact CL].
Qed.
Print Assumptions csv_table.

(** C58. Full statement: for every content of the file, reading terminates without reading out of bounds:
    [forall V stod content, exists fuel r, read_csv stod fuel content = Some r /\ r <> OutOfBounds].
    It holds if every line before the first blank line or the end is ended by a line break and has at least as many commas as
    the first line. *)
Theorem csv_safe_partial : forall V (stod : list ascii -> option V) first lines tail fuel,
  Forall (fun l => ~ In "010"%char l /\ count_commas first <= count_commas l) (first :: lines) -> (tail = [] \/ exists rest, tail = "010"%char :: rest) -> S (length lines) <= fuel ->
  exists r, read_csv stod fuel (flat_map (fun l => l ++ ["010"%char]) (first :: lines) ++ tail) = Some r /\ r <> OutOfBounds.
Proof.
  intros V stod first lines tail fuel F T FU. unfold read_csv.
  assert (F' : Forall (fun l => ~ In LF l /\ count_commas first + 1 <= count_commas l + 1) (first :: lines)) by (eapply Forall_impl; [|exact F]; intros l [A B]; split; [exact A|lia]).
  destruct (read_rows_safe stod (first :: lines) fuel (count_commas first + 1) 0 [] tail F' T ltac:(exact FU)) as (r & E & NB).
  exists r. split; [|exact NB]. revert E. inversion F as [|? ? [NL _] _]; subst. change (fun l => l ++ [LF]) with (fun l : list ascii => l ++ ["010"%char]). unfold getline. cbn [good unread flat_map]. rewrite <- !app_assoc. cbn [app]. rewrite (take_line_app first _ NL). exact (fun E => E).
Qed.
Print Assumptions csv_safe_partial.

(** It is false in general. If the last line of a well-formed table is not ended by a line break, the loop never ends: the
    second [std::getline] after the end leaves [line] unchanged. If a line has fewer entries than the first, the search for
    the next comma starts beyond the end of the line. *)
Theorem csv_endless_refuted : forall V (stod : list ascii -> option V) cols table values row vs fuel,
  0 < cols -> stod [] = None -> rectangular cols (table ++ [row]) -> numbers stod (table ++ [row]) (values ++ [vs]) -> length table = length values ->
  read_csv stod fuel (text table ++ commas row) = None.
Proof.
  intros V stod cols table values row vs fuel C S0 RT N LE. apply Forall_app in RT. destruct RT as [RT RR]. inversion RR as [|? ? [L F] _]; subst. clear RR.
  assert (N2 : numbers stod table values /\ Forall2 (fun e x => stod e = Some x) row vs).
  { clear -N LE. revert values N LE. induction table as [|t table IH]; intros [|v values] N LE; try discriminate LE.
    - inversion N as [|? ? ? ? E N']; subst. split; [constructor|exact E].
    - inversion N as [|? ? ? ? E N']; subst. destruct (IH values N' ltac:(cbn in LE; lia)) as [A B]. split; [constructor; assumption|exact B]. }
  destruct N2 as [NT NR]. assert (NE : row <> []) by (intros ->; cbn in C; lia).
  assert (RC : forall data, exists data', read_columns stod (length row) (commas row) 0 data = inr data') by (intros data; exists (data ++ vs); exact (read_columns_row stod row vs [] data F NR NE)).
  assert (LAST : forall f rows data, (let '(s, line) := getline (Stream (commas row) true) [] in read_rows stod f (length row) s line rows data) = None).
  { intros f rows data. unfold getline. cbn [good unread]. rewrite take_line_end by now apply row_no_break. apply read_rows_stuck; [now apply (row_nonempty stod row vs)|exact RC]. }
  destruct (read_csv stod fuel (text table ++ commas row)) as [r|] eqn:E; [exfalso|reflexivity]. destruct table as [|first table].
  - cbn [text flat_map app] in E. unfold read_csv in E. specialize (LAST fuel 0 []). unfold getline in E, LAST. cbn [good unread] in E, LAST. rewrite take_line_end in E, LAST by now apply row_no_break. rewrite count_row in E by assumption. congruence.
  - assert (E' : read_csv stod (fuel + length (first :: table)) (text (first :: table) ++ commas row) = Some r).
    { clear LAST. unfold read_csv in *. destruct (getline _ _) as [s line]. eapply read_rows_more; [|exact E]. lia. }
    rewrite (read_csv_table stod (length row) first table values) in E' by (assumption || lia). rewrite LAST in E'. discriminate.
Qed.
Print Assumptions csv_endless_refuted.
Definition as_text (e : list ascii) : option (list ascii) := match e with [] => None | _ => Some e end.
Theorem csv_bounds_refuted : read_csv as_text 2 ["1"; ","; "2"; "010"; "3"; "010"]%char = Some OutOfBounds.
Proof. reflexivity. Qed.
Print Assumptions csv_bounds_refuted.

Example csv_example :
  read_csv as_text 9 ["1"; ","; "-"; "2"; "010"; "3"; ","; "4"; "010"]%char = Some (Table 2 2 [["1"]; ["-"; "2"]; ["3"]; ["4"]]%char) /\
  read_csv as_text 9 ["1"; ","; "010"]%char = Some Exception /\
  read_csv as_text 9 ["1"; "010"; "2"; ","; "5"; "010"; "010"; "x"]%char = Some (Table 2 1 [["1"]; ["2"]]%char) /\
  read_csv as_text 1000 ["1"]%char = None.
Proof. vm_compute. auto. Qed.
