(** Proofs about printed reports. *)
From Verif Require Import Base BaseFacts M_Text M_Types M_Token M_Diag M_SourceFile M_Report S_Util S_Report P_Util P_Report.

Lemma blen_within s : AsciiText s -> blen s = length s.
Proof.
  intros H. apply blen_ascii. apply forallb_forall. unfold AsciiText in H. rewrite Forall_forall in H.
  intros x Hx. unfold is_ascii. apply N.ltb_lt. auto.
Qed.
Lemma line_prints p f : Within p -> exists l, write_trace_line p f = Ret l /\ PlaceLine p f l.
Proof.
  intros [A L]. rewrite (blen_within _ A) in L. pose proof (firstn_skipn (pl_start p) (pl_text p)) as E.
  assert (B : blen (firstn (pl_start p) (pl_text p)) = pl_start p).
  { rewrite blen_within; [now apply firstn_length_le|]. unfold AsciiText in *. rewrite <- E in A. now apply Forall_app in A. }
  destruct (line_col_ascii (firstn (pl_start p) (pl_text p)) (skipn (pl_start p) (pl_text p))) as (line & col & I & LC).
  { rewrite E. exact A. }
  rewrite E, B in I. unfold write_trace_line. rewrite I. cbn [obind]. eexists. split; [reflexivity|]. cbn [fst snd].
  eapply place_line with (1 := eq_sym E); auto.
Qed.
Lemma blen_prefix_inj (a b c d : str) : a ++ b = c ++ d -> blen a = blen c -> a = c.
Proof.
  revert c. induction a as [|x a IH]; intros [|y c] E B; cbn in *; auto.
  - assert (1 <= utf8_len y) by (unfold utf8_len; repeat destruct (_ <? _)%N; lia). lia.
  - assert (1 <= utf8_len x) by (unfold utf8_len; repeat destruct (_ <? _)%N; lia). lia.
  - injection E as -> E. f_equal. apply (IH c); auto. lia.
Qed.
Lemma PlaceLine_fun p f l l' : PlaceLine p f l -> PlaceLine p f l' -> l = l'.
Proof.
  intros [pre post line col E B L] [pre' post' line' col' E' B' L'].
  assert (pre = pre') as <- by (eapply blen_prefix_inj; [rewrite <- E; exact E'|congruence]).
  destruct (LineCol_fun _ _ _ _ _ L L') as [-> ->]. reflexivity.
Qed.
Lemma ReportText_fun F e p tr t t' : ReportText F e p tr t -> ReportText F e p tr t' -> t = t'.
Proof.
  intros [l L|calls lines N H]; intros X; inversion X as [l' L'|calls' lines' N' H']; subst.
  - do 2 f_equal. eapply PlaceLine_fun; eauto.
  - replace lines' with lines; auto. apply nth_ext with (d := []) (d' := []); [lia|]. intros i Hi.
    pose proof (nth_error_nth' lines [] Hi) as E. pose proof (nth_error_nth' lines' [] (ltac:(lia) : i < length lines')) as E'.
    destruct (H _ _ E) as (q & Q & P). destruct (H' _ _ E') as (q' & Q' & P'). assert (q' = q) as -> by congruence.
    eapply PlaceLine_fun; eauto.
Qed.

Definition next_func (calls : list place) (f : option str) (i : nat) : option str :=
  match i with 0 => f | S j => match nth_error calls j with Some c => pl_func c | None => None end end.
Lemma calls_print calls : forall f, Forall Within calls -> exists lines,
  write_calls calls f = Ret (List.concat lines, next_func calls f (length calls)) /\ length lines = length calls /\
  forall i l, nth_error lines i = Some l -> exists q, nth_error calls i = Some q /\ PlaceLine q (next_func calls f i) l.
Proof.
  induction calls as [|c calls IH]; intros f W.
  - exists []. repeat split. intros [|] l; discriminate.
  - apply Forall_cons_iff in W as [Wc W]. destruct (line_prints c f Wc) as (l & E & P). destruct (IH (pl_func c) W) as (lines & E2 & N & H).
    exists (l :: lines). split; [|split].
    + cbn [write_calls]. rewrite E. cbn [obind]. rewrite E2. cbn [obind fst snd]. do 2 f_equal.
      cbn [length next_func]. destruct (length calls) as [|k]; reflexivity.
    + cbn. now rewrite N.
    + intros [|i] l' Hl; cbn in Hl.
      * injection Hl as <-. exists c. auto.
      * destruct (H i l' Hl) as (q & Q & P'). exists q. split; auto. cbn [next_func]. destruct i; cbn [nth_error]; exact P'.
Qed.
Lemma report_prints F d : Forall Within (places d) ->
  exists t, diagnostic_text F d = Ret t /\ ReportText F (dg_msg d) (dg_place d) (dg_trace d) t.
Proof.
  destruct d as [e p [calls|]]; unfold places, diagnostic_text; cbn [dg_trace dg_place dg_msg]; intros W.
  - apply Forall_app in W as [W Wp]. apply Forall_inv in Wp. destruct (calls_print calls None W) as (lines & E & N & H). rewrite E. cbn [obind fst snd].
    destruct (line_prints p (next_func calls None (length calls)) Wp) as (l & El & P). rewrite El. cbn [obind].
    eexists. split; [reflexivity|].
    replace (List.concat lines ++ l ++ error_text F e ++ [10%N]) with (List.concat (lines ++ [l]) ++ error_text F e ++ [10%N])
      by (rewrite concat_app; cbn [List.concat]; rewrite app_nil_r, <- app_assoc; reflexivity).
    constructor.
    + rewrite app_length. cbn. lia.
    + intros i l' Hl. destruct (Nat.lt_ge_cases i (length lines)) as [L|L].
      * rewrite nth_error_app1 in Hl by auto. destruct (H _ _ Hl) as (q & Q & P'). exists q. split.
        -- rewrite nth_error_app1; auto. lia.
        -- unfold next_func in P'. exact P'.
      * rewrite nth_error_app2 in Hl by auto. destruct (i - length lines) as [|k] eqn:K; cbn in Hl; [|destruct k; discriminate Hl].
        injection Hl as <-. exists p. rewrite N in *. assert (i = length calls) as -> by lia. split.
        -- rewrite nth_error_app2, Nat.sub_diag by lia. reflexivity.
        -- exact P.
  - apply Forall_inv in W. destruct (line_prints p None W) as (l & E & P). rewrite E. cbn [obind]. eexists. split; [reflexivity|].
    now constructor.
Qed.
Lemma report_exact F d t : Forall Within (places d) ->
  diagnostic_text F d = Ret t <-> ReportText F (dg_msg d) (dg_place d) (dg_trace d) t.
Proof.
  intros W. destruct (report_prints F d W) as (t' & E & R). split; intros H.
  - assert (t = t') as -> by congruence. exact R.
  - rewrite E. f_equal. eapply ReportText_fun; eauto.
Qed.
Lemma print_prints F v : Forall (fun d => Forall Within (places d)) v ->
  exists ts, print_all F v = Ret (List.concat (map (fun t => t ++ [10%N]) ts)) /\
    Forall2 (fun d t => ReportText F (dg_msg d) (dg_place d) (dg_trace d) t) v ts.
Proof.
  induction 1 as [|d v W _ (ts & E & H)].
  - exists []. split; auto.
  - destruct (report_prints F d W) as (t & Et & R). exists (t :: ts). split; [|auto].
    cbn [print_all]. rewrite Et. cbn [obind]. rewrite E. cbn [obind map List.concat]. now rewrite <- app_assoc.
Qed.

(** * When printing panics *)
Lemma coords_length s : forall a b, length (line_col_coords s a b) = length s.
Proof. induction s; intros; cbn; auto. Qed.
Lemma line_cases p f : (pl_start p <= length (pl_text p) /\ exists l, write_trace_line p f = Ret l) \/
  (length (pl_text p) < pl_start p /\ write_trace_line p f = Panic).
Proof.
  unfold write_trace_line, index_to_line_col. destruct (nth_error _ _) as [[a b]|] eqn:E.
  - left. split; [|cbn; eauto]. assert (X : pl_start p < length ((1, 1) :: line_col_coords (pl_text p) 1 1)) by (apply nth_error_Some; congruence).
    cbn [length] in X. rewrite coords_length in X. lia.
  - right. split; [|reflexivity]. apply nth_error_None in E. cbn [length] in E. rewrite coords_length in E. lia.
Qed.
Lemma calls_cases calls : forall f, (Forall (fun p => pl_start p <= length (pl_text p)) calls /\ exists r, write_calls calls f = Ret r) \/
  (Exists (fun p => length (pl_text p) < pl_start p) calls /\ write_calls calls f = Panic).
Proof.
  induction calls as [|c calls IH]; intros f; [left; split; [constructor|cbn; eauto]|]. cbn [write_calls].
  destruct (line_cases c f) as [[L [l E]]|[L E]]; rewrite E; cbn [obind]; [|right; split; [now left|reflexivity]].
  destruct (IH (pl_func c)) as [[A [r E2]]|[A E2]]; rewrite E2; cbn [obind]; [left|right; auto].
  split; [now constructor|eauto].
Qed.
Lemma report_panics F d : diagnostic_text F d = Panic <-> Exists (fun p => length (pl_text p) < pl_start p) (places d).
Proof.
  destruct d as [e p [calls|]]; unfold places, diagnostic_text; cbn [dg_trace dg_place dg_msg].
  - destruct (calls_cases calls None) as [[A [r E]]|[A E]]; rewrite E; cbn [obind].
    + destruct (line_cases p (snd r)) as [[L [l E2]]|[L E2]]; rewrite E2; cbn [obind]; (split; [try discriminate|try reflexivity]).
      * rewrite Exists_app. intros [X|X].
        -- rewrite Forall_forall in A. apply Exists_exists in X as (q & Hq & Hl). apply A in Hq. lia.
        -- inversion X as [? ? Y|? ? Y]; [lia|inversion Y].
      * intros _. apply Exists_app. right. now constructor.
    + split; [|reflexivity]. intros _. apply Exists_app. now left.
  - destruct (line_cases p None) as [[L [l E]]|[L E]]; rewrite E; cbn [obind]; (split; [try discriminate|try reflexivity]).
    + intros X. inversion X as [? ? Y|? ? Y]; [lia|inversion Y].
    + intros _. now constructor.
Qed.
Lemma report_no_fuel F d : diagnostic_text F d <> OutOfFuel.
Proof.
  destruct d as [e p [calls|]]; unfold diagnostic_text; cbn [dg_trace dg_place dg_msg].
  - destruct (calls_cases calls None) as [[A [r E]]|[A E]]; rewrite E; cbn [obind]; [|discriminate].
    destruct (line_cases p (snd r)) as [[L [l E2]]|[L E2]]; rewrite E2; cbn [obind]; discriminate.
  - destruct (line_cases p None) as [[L [l E]]|[L E]]; rewrite E; cbn [obind]; discriminate.
Qed.

(** * The stack trace *)
Lemma trace_calls frames calls : CallsOf frames calls ->
  stack_trace frames = map (fun c => Place (pl_path (snd c)) (pl_text (snd c)) (pl_start (snd c)) (Some (lit "@" ++ fst c))) calls.
Proof. induction 1 as [|frames calls _ IH|f p frames calls _ IH]; [reflexivity|exact IH|]. unfold stack_trace in *. cbn [flat_map map app fst snd]. now rewrite IH. Qed.
Lemma PlaceLine_ext p q f l : pl_path p = pl_path q -> pl_text p = pl_text q -> pl_start p = pl_start q -> PlaceLine p f l -> PlaceLine q f l.
Proof. intros E1 E2 E3 [pre post line col A B C]. rewrite E1. econstructor; [rewrite <- E2; exact A|congruence|exact C]. Qed.
Lemma traceback F e p frames calls t :
  CallsOf frames calls -> Forall Within (map snd calls ++ [p]) ->
  diagnostic_text F (Diagnostic e p (Some (stack_trace frames))) = Ret t ->
  exists lines, length lines = length calls + 1 /\
    t = lit "Traceback (most recent call last):" ++ [10%N] ++ List.concat lines ++ error_text F e ++ [10%N] /\
    forall i l, nth_error lines i = Some l ->
      exists q, nth_error (map snd calls ++ [p]) i = Some q /\
        PlaceLine q (match i with 0 => None | S j => option_map (fun c => lit "@" ++ fst c) (nth_error calls j) end) l.
Proof.
  intros C W H. rewrite (trace_calls _ _ C) in H. apply report_exact in H.
  - cbn [dg_msg dg_place dg_trace] in H. inversion H as [|? lines N L]; subst. exists lines. rewrite map_length in N.
    split; [exact N|]. split; [reflexivity|]. intros i l Hl. destruct (L _ _ Hl) as (q & Q & P).
    destruct (Nat.lt_ge_cases i (length calls)) as [I|I].
    + destruct (nth_error calls i) as [[f q']|] eqn:Ei; [|apply nth_error_None in Ei; lia].
      exists q'. split.
      * rewrite nth_error_app1 by now rewrite map_length. now rewrite (map_nth_error snd _ _ Ei).
      * rewrite nth_error_app1 in Q by now rewrite map_length. rewrite (map_nth_error _ _ _ Ei) in Q. injection Q as <-.
        apply PlaceLine_ext with (q := q') in P; auto. destruct i as [|j]; [exact P|]. unfold function_of in P.
        rewrite nth_error_map in P. destruct (nth_error calls j); exact P.
    + assert (i = length calls) as ->. { assert (i < length lines) by (apply nth_error_Some; congruence). lia. }
      rewrite nth_error_app2 in Q by (rewrite map_length; lia). rewrite map_length, Nat.sub_diag in Q. injection Q as <-.
      exists p. split; [rewrite nth_error_app2 by (rewrite map_length; lia); now rewrite map_length, Nat.sub_diag|].
      unfold function_of in P. destruct (length calls) as [|j]; [exact P|]. rewrite nth_error_map in P. destruct (nth_error calls j); exact P.
  - cbn [places dg_trace dg_place]. apply Forall_app in W as [W Wp]. apply Forall_app. split; [|exact Wp].
    rewrite Forall_map in W |- *. eapply Forall_impl; [|exact W]. intros a [A B]. split; auto.
Qed.

(** * The summary *)
Lemma summary_inj d d' : sink_summary d = sink_summary d' -> sk_errors d = sk_errors d' /\ sk_warnings d = sk_warnings d'.
Proof.
  assert (W : forall n m, dec n ++ lit " warning" ++ pluralise n = dec m ++ lit " warning" ++ pluralise m -> n = m).
  { intros n m E. change (lit " warning") with (32%N :: lit "warning") in E. cbn [app] in E.
    apply split_first in E as [E _]; try now apply dec_not. now apply dec_inj. }
  assert (C : forall n m x y, dec n ++ lit " error" ++ x = dec m ++ lit " error" ++ y -> n = m /\ x = y).
  { intros n m x y E. change (lit " error") with (32%N :: lit "error") in E. cbn [app] in E.
    apply split_first in E as [E F]; try now apply dec_not. split; [now apply dec_inj|]. now apply app_inv_head in F. }
  unfold sink_summary.
  destruct (N.ltb_spec 0 (sk_errors d)) as [A|A]; destruct (N.ltb_spec 0 (sk_errors d')) as [A'|A'];
  try destruct (N.ltb_spec 0 (sk_warnings d)) as [B|B]; try destruct (N.ltb_spec 0 (sk_warnings d')) as [B'|B']; intros E;
  try discriminate E; try (apply app_inv_head in E).
  all: try (apply W in E; lia).
  all: try (apply C in E as [E1 E]; rewrite E1 in E; apply app_inv_head, app_inv_head, W in E; auto).
  split; lia.
Qed.
