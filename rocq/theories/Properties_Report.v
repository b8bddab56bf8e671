(** C64: what the printed diagnostics say. *)
From Verif Require Import Base M_Types M_Token M_Diag M_SourceFile M_Report S_Util S_Report P_Messages P_ReportText S_Wording P_Wording.

(** In ASCII files the text printed for a diagnostic is: its message and its place; or, for one with a stack trace, a
    line for every call from the oldest to the newest, the line of its own place, and its message. Every line gives the
    file, line and column, and the function it is in. *)
Theorem C64_report : forall F d, Forall Within (places d) ->
  (exists t, diagnostic_text F d = Ret t) /\
  forall t, diagnostic_text F d = Ret t <-> ReportText F (dg_msg d) (dg_place d) (dg_trace d) t.
Proof.
  intros F d W. split; [destruct (report_prints F d W) as (t & E & _); eauto|]. intros t. now apply report_exact.
Qed.
Print Assumptions C64_report.

(** The calls shown are those of the frames of the stack: the line of a call is in the function called before it, and
    the last line in the function called last. *)
Theorem C64_traceback : forall F e p frames calls t,
  CallsOf frames calls -> Forall Within (map snd calls ++ [p]) ->
  diagnostic_text F (Diagnostic e p (Some (stack_trace frames))) = Ret t ->
  exists lines, List.length lines = List.length calls + 1 /\
    t = lit "Traceback (most recent call last):" ++ [10%N] ++ List.concat lines ++ error_text F e ++ [10%N] /\
    forall i l, nth_error lines i = Some l ->
      exists q, nth_error (map snd calls ++ [p]) i = Some q /\
        PlaceLine q (match i with 0 => None | S j => option_map (fun c => lit "@" ++ fst c) (nth_error calls j) end) l.
Proof. exact traceback. Qed.
Print Assumptions C64_traceback.

(** All the diagnostics are printed, in the order in which they were reported, each followed by an empty line. *)
Theorem C64_order : forall F v, Forall (fun d => Forall Within (places d)) v ->
  exists ts, print_all F v = Ret (List.concat (map (fun t => t ++ [10%N]) ts)) /\
    Forall2 (fun d t => ReportText F (dg_msg d) (dg_place d) (dg_trace d) t) v ts.
Proof. exact print_prints. Qed.
Print Assumptions C64_order.

(** The messages tell the errors apart: two errors with the same message are the same, up to the details of token kinds
    which are not shown. *)
Theorem C64_messages : forall F e e', PlainText e -> PlainText e' -> error_text F e = error_text F e' -> shown e = shown e'.
Proof. exact error_inj. Qed.
Print Assumptions C64_messages.

(** Whatever their texts, an error is never shown like a warning. *)
Theorem C64_severity : forall F e e', error_text F e = error_text F e' -> severity_of e = severity_of e'.
Proof. exact severity_shown. Qed.
Print Assumptions C64_severity.

(** The summary tells the numbers of errors and warnings. *)
Theorem C64_summary : forall d d', sink_summary d = sink_summary d' ->
  sk_errors d = sk_errors d' /\ sk_warnings d = sk_warnings d'.
Proof. exact P_ReportText.summary_inj. Qed.
Print Assumptions C64_summary.

(** In any file, printing panics exactly when a place is at a byte offset above the number of characters of the file. *)
Theorem C64_panics : forall F d,
  diagnostic_text F d <> OutOfFuel /\
  (diagnostic_text F d = Panic <-> Exists (fun p => List.length (pl_text p) < pl_start p) (places d)).
Proof. intros F d. split; [apply report_no_fuel|apply report_panics]. Qed.
Print Assumptions C64_panics.

(** So a diagnostic at the end of a file which is not ASCII cannot be printed: the compiler panics instead. The file is
    an e with an acute accent followed by an opening parenthesis; the place is the end of the file. *)
Theorem C64_not_ascii_refuted : exists d, pl_start (dg_place d) = blen (pl_text (dg_place d)) /\
  forall F, diagnostic_text F d = Panic.
Proof. exists (Diagnostic (SyntaxErr UnexpectedEOF) (Place (lit "a.papyri") [233; 40]%N 3 None) None). split; reflexivity. Qed.
Print Assumptions C64_not_ascii_refuted.

(** The text of a message raised by a program is printed as it is, so that one diagnostic can look like two. *)
Theorem C64_forged_refuted : exists F d d1 d2 t,
  print_all F [d] = Ret t /\ print_all F [d1; d2] = Ret t /\ exists s, dg_msg d = RuntimeErr (Raised s).
Proof.
  pose (p := Place (lit "a.papyri") (lit "x") 0 None).
  pose (l := lit "Traceback (most recent call last):" ++ [10%N] ++ lit "    File ""a.papyri"", line 1, col 1" ++ [10%N]).
  exists {| fo_int := []; fo_regex := []; fo_io := fun _ => []; fo_network := [] |},
    (Diagnostic (RuntimeErr (Raised (lit "no" ++ [10; 10]%N ++ l ++ lit "Name error: no such variable 'y'"))) p (Some [])),
    (Diagnostic (RuntimeErr (Raised (lit "no"))) p (Some [])),
    (Diagnostic (NameErr (NoSuchVariable (lit "y"))) p (Some [])).
  eexists. split; [vm_compute; reflexivity|]. split; [vm_compute; reflexivity|]. eexists. reflexivity.
Qed.
Print Assumptions C64_forged_refuted.

(** Every message has the words of the table in S_Wording, with the names, types and numbers that it is about in their places. *)
Theorem C64_wording : forall F e s, Filled (lit (fst (wording F e))) (snd (wording F e)) s <-> s = error_text F e.
Proof.
  intros F e s. split; [intro H; exact (filled_fun _ _ _ _ H (wording_spec F e))|intros ->; apply wording_spec].
Qed.
Print Assumptions C64_wording.

(** The error at line 2, column 3 of [b.papyri], in the function [g] called by [f] called by [a.papyri]. *)
Definition ex_places := [(lit "f", Place (lit "a.papyri") (lit "x @f.") 2 None);
                         (lit "g", Place (lit "b.papyri") (lit "@g." ++ [10%N] ++ lit "  $z") 0 None)].
Definition ex_error := Diagnostic (NameErr (NoSuchVariable (lit "z"))) (Place (lit "b.papyri") (lit "@g." ++ [10%N] ++ lit "  $z") 6 None)
                         (Some (stack_trace [None; Some (nth 0 ex_places ([], Place [] [] 0 None)); None; Some (nth 1 ex_places ([], Place [] [] 0 None))])).
Example C64_nonvacuous :
  Forall Within (places ex_error) /\
  forall F, diagnostic_text F ex_error = Ret (
    lit "Traceback (most recent call last):" ++ [10%N] ++
    lit "    File ""a.papyri"", line 1, col 3" ++ [10%N] ++
    lit "    File ""b.papyri"", line 1, col 1, in @f" ++ [10%N] ++
    lit "    File ""b.papyri"", line 2, col 3, in @g" ++ [10%N] ++
    lit "Name error: no such variable 'z'" ++ [10%N]).
Proof.
  split; [|reflexivity]. repeat constructor; cbn; lia.
Qed.
Example C64_nonvacuous_messages :
  PlainText (SyntaxErr (TokenExpectedWas RPar (Kw KLet))) /\
  shown (SyntaxErr (TokenExpectedWas RPar (Kw KLet))) <> shown (SyntaxErr (TokenExpectedWas RPar Comma)) /\
  CallsOf [None; Some (nth 0 ex_places ([], Place [] [] 0 None)); None; Some (nth 1 ex_places ([], Place [] [] 0 None))] ex_places.
Proof. split; [exact I|]. split; [discriminate|]. repeat constructor. Qed.
Example C64_nonvacuous_wording F :
  error_text F (SyntaxErr (TokenExpectedWas RPar (Kw KLet))) = lit "Syntax error: expected ')', was keyword" /\
  error_text F (TypeErr (TooManyPositionalArgs 2 10)) = lit "Type error: too many positional arguments (expected 2, was 10)".
Proof. split; reflexivity. Qed.
