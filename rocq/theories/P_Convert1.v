(** Proofs for C71: decimal numerals, and how values are shown. *)
From Coq Require Decimal DecimalN DecimalFacts.
From Verif Require Import Base BaseFacts M_Names M_TokenText M_TextSubs M_Html S_Html M_Types M_Diag M_Value S_Types S_Native S_Convert
  P_Html P_Types P_Coerce P_Escape.

(** ** Numerals *)
Lemma radix_numeral s : Forall (fun d => (48 <= d <= 57)%N) s -> forall acc m, radix_loop 10 s acc = Some m ->
  Z.of_N m = (Z.of_N acc * 10 ^ Z.of_nat (length s) + numeral s)%Z.
Proof.
  induction 1 as [|c s Hc Hs IH]; intros acc m E.
  - cbn in E. injection E as <-. cbn. lia.
  - cbn [radix_loop] in E. assert (hex_digit c = Some (c - 48)%N) as Eh.
    { unfold hex_digit, is_ascii_digit, in_range. replace ((48 <=? c)%N && (c <=? 57)%N) with true by (symmetry; lia). reflexivity. }
    rewrite Eh in E. replace ((c - 48 <? 10)%N) with true in E by (symmetry; lia). apply IH in E. rewrite E.
    cbn [numeral length]. rewrite Nat2Z.inj_succ, Z.pow_succ_r by lia. replace (Z.of_N (acc * 10 + (c - 48))) with (Z.of_N acc * 10 + (Z.of_N c - 48))%Z by lia. ring.
Qed.
Lemma dec_Forall n : Forall (fun d => (48 <= d <= 57)%N) (dec n).
Proof. apply Forall_forall. intros d I. pose proof (proj1 (forallb_forall _ _) (dec_digits n) _ I) as E. unfold is_ascii_digit, in_range in E. lia. Qed.
Lemma dec_numeral n : numeral (dec n) = Z.of_N n.
Proof. pose proof (radix_numeral _ (dec_Forall n) 0 n (radix_dec_str n)). lia. Qed.
Lemma uint_str_nil d : uint_str d = [] -> d = Decimal.Nil.
Proof. destruct d; [reflexivity|discriminate..]. Qed.
Lemma dec_no_zeros n t : dec n = 48%N :: t -> t = [].
Proof.
  unfold dec. intro H. assert (N.to_uint n = Decimal.unorm (N.to_uint n)) as U.
  { rewrite <- DecimalN.Unsigned.to_of, DecimalN.Unsigned.of_to. reflexivity. }
  destruct (N.to_uint n) as [|d|d|d|d|d|d|d|d|d|d]; try discriminate H. injection H as <-.
  rewrite DecimalFacts.unorm_D0 in U. unfold Decimal.unorm in U.
  destruct (Decimal.nzhead d) as [|e|e|e|e|e|e|e|e|e|e] eqn:Z; try discriminate U.
  - injection U as ->. reflexivity.
  - exfalso. exact (DecimalFacts.nzhead_nonzero _ _ Z).
Qed.
Lemma numeral_bound ds : Forall (fun d => (48 <= d <= 57)%N) ds -> (0 <= numeral ds < 10 ^ Z.of_nat (length ds))%Z.
Proof.
  induction 1 as [|d ds Hd Hs IH]; [cbn; lia|]. cbn [numeral length]. rewrite Nat2Z.inj_succ, Z.pow_succ_r by lia.
  assert (0 <= Z.of_N d - 48 <= 9)%Z as B by lia. nia.
Qed.
Lemma numeral_same ds : forall ds', Forall (fun d => (48 <= d <= 57)%N) ds -> Forall (fun d => (48 <= d <= 57)%N) ds' ->
  length ds = length ds' -> numeral ds = numeral ds' -> ds = ds'.
Proof.
  induction ds as [|d ds IH]; intros [|d' ds'] F F' L E; try discriminate L; [reflexivity|].
  inversion F as [|? ? Hd Hs]; inversion F' as [|? ? Hd' Hs']; subst. injection L as L. cbn [numeral] in E. rewrite <- L in E.
  pose proof (numeral_bound _ Hs). pose proof (numeral_bound _ Hs'). rewrite <- L in *.
  assert (Z.of_N d = Z.of_N d') as Ed by nia. assert (d = d') as <- by lia. f_equal. apply IH; auto. lia.
Qed.
Lemma numeral_low d ds : Forall (fun d => (48 <= d <= 57)%N) (d :: ds) -> d <> 48%N -> (10 ^ Z.of_nat (length ds) <= numeral (d :: ds))%Z.
Proof. intros F N. inversion F as [|? ? Hd Hs]; subst. pose proof (numeral_bound _ Hs). cbn [numeral]. nia. Qed.
Lemma numeral_length ds ds' : Digits ds -> Digits ds' -> (forall t, ds = 48%N :: t -> t = []) -> (forall t, ds' = 48%N :: t -> t = []) ->
  numeral ds = numeral ds' -> length ds <= length ds'.
Proof.
  intros [N F] [N' F'] Z Z' E. destruct ds as [|d ds]; [congruence|]. destruct (N.eq_dec d 48) as [-> | Nd].
  - rewrite (Z _ eq_refl). destruct ds'; [congruence|cbn; lia].
  - pose proof (numeral_low _ _ F Nd) as L. pose proof (numeral_bound _ F') as B. rewrite E in L.
    assert (10 ^ Z.of_nat (length ds) < 10 ^ Z.of_nat (length ds'))%Z as P by lia.
    apply Z.pow_lt_mono_r_iff in P; [|lia|lia]. cbn [length]. lia.
Qed.
Lemma numeral_unique ds ds' : Digits ds -> Digits ds' -> (forall t, ds = 48%N :: t -> t = []) -> (forall t, ds' = 48%N :: t -> t = []) ->
  numeral ds = numeral ds' -> ds = ds'.
Proof.
  intros D D' Z Z' E. apply numeral_same; [apply D|apply D'| |exact E]. apply Nat.le_antisymm; apply numeral_length; auto.
Qed.
Definition decimal (sign : char) (i : Z) : str := if (i <? 0)%Z then sign :: dec (Z.to_N (- i)) else dec (Z.to_N i).
Lemma dec_Digits n : Digits (dec n).
Proof. split; [apply dec_nonempty|apply dec_Forall]. Qed.
Lemma decimal_iff sign i s : Decimal sign i s <-> s = decimal sign i.
Proof.
  unfold decimal. split.
  - intros (ds & D & Z & [(P & -> & E) | (P & -> & E)]).
    + replace (i <? 0)%Z with false by (symmetry; lia). apply numeral_unique; auto; [apply dec_Digits|apply dec_no_zeros|]. rewrite dec_numeral. lia.
    + replace (i <? 0)%Z with true by (symmetry; lia). f_equal. apply numeral_unique; auto; [apply dec_Digits|apply dec_no_zeros|]. rewrite dec_numeral. lia.
  - intros ->. destruct (i <? 0)%Z eqn:E.
    + exists (dec (Z.to_N (- i))). split; [apply dec_Digits|]. split; [apply dec_no_zeros|]. right. split; [lia|]. split; [reflexivity|]. rewrite dec_numeral. lia.
    + exists (dec (Z.to_N i)). split; [apply dec_Digits|]. split; [apply dec_no_zeros|]. left. split; [lia|]. split; [reflexivity|]. rewrite dec_numeral. lia.
Qed.
Lemma zdec_decimal i : zdec i = decimal 45 i.
Proof. destruct i; reflexivity. Qed.
Lemma longest_none table s : forallb (fun pr => match strip_prefix (fst pr) s with None => true | Some _ => false end) table = true -> longest_sub table s = None.
Proof.
  induction table as [|[p r] table IH]; [reflexivity|]. cbn [forallb fst longest_sub]. intro H. apply andb_true_iff in H as [H1 H2].
  destruct (strip_prefix p s); [discriminate|auto].
Qed.
Lemma digit_stays s : Forall (fun d => (48 <= d <= 57)%N) s -> replace_all text_subs 0 s = s.
Proof.
  induction 1 as [|c s Hc Hs IH]; [reflexivity|]. cbn [replace_all].
  assert (longest_sub text_subs (c :: s) = None) as ->.
  { apply longest_none. apply forallb_forall. intros [p r] I.
    assert (match p with d :: _ => d <> c | [] => False end) as K.
    { revert p r I. assert (Forall (fun pr => match fst pr with d :: _ => ~ (48 <= d <= 57)%N | [] => False end) text_subs) as K.
      { repeat constructor; cbn; lia. }
      intros p r I. rewrite Forall_forall in K. specialize (K _ I). cbn [fst] in K. destruct p; [exact K|]. intros ->. auto. }
    cbn [fst]. destruct p as [|d p]; [destruct K|]. cbn [strip_prefix]. destruct (N.eqb_spec d c) as [E|_]; [congruence|reflexivity]. }
  now rewrite IH.
Qed.
Lemma int_shown i : substitutions (zdec i) = decimal minus_sign i.
Proof.
  rewrite zdec_decimal. unfold decimal, substitutions. destruct (i <? 0)%Z; [|apply digit_stays, dec_Forall].
  pose proof (dec_nonempty (Z.to_N (- i))) as Ne. pose proof (dec_Forall (Z.to_N (- i))) as F. destruct (dec (Z.to_N (- i))) as [|d ds]; [congruence|].
  inversion F as [|? ? Hd Hs]; subst. cbn [replace_all].
  assert (longest_sub text_subs (45%N :: d :: ds) = Some ([45%N; d], [minus_sign; d])) as ->.
  { assert (In d (map N.of_nat (seq 48 10))) as I. { replace d with (N.of_nat (N.to_nat d)) by lia. apply in_map, in_seq. lia. }
    cbn in I. repeat (destruct I as [<- | I]; [reflexivity|]). destruct I. }
  cbn [length Nat.sub app]. now rewrite (digit_stays ds Hs).
Qed.

(** ** How values are shown *)
Lemma events_text s : events (html_text s) = txt s.
Proof.
  unfold html_text. destruct s as [|a [|b s]]; try reflexivity. destruct (N.eqb_spec a 32) as [E|_]; [now rewrite E|].
  destruct (N.eqb_spec a 10) as [E|_]; [now rewrite E|]. reflexivity.
Qed.
Lemma Forall2_map_l {A B} (R : A -> B -> Prop) f l : (forall a, In a l -> R a (f a)) -> Forall2 R l (map f l).
Proof. induction l as [|a l IH]; intro H; constructor; [apply H; now left|apply IH; intros; apply H; now right]. Qed.
Lemma Forall2_map_r {A B} (R : A -> B -> Prop) f l m : (forall a b, In a l -> R a b -> b = f a) -> Forall2 R l m -> m = map f l.
Proof.
  intros H F. induction F as [|a b l m Hab F IH]; [reflexivity|]. cbn. f_equal; [apply H; [now left|exact Hab]|].
  apply IH. intros; apply H; [now right|assumption].
Qed.
Definition item_of (v : value) : list event := element "li" [] (events (compile_value v)).
Definition row_of (kv : str * value) : list event :=
  element "tr" [] (element "th" [] (txt (fst kv)) ++ element "td" [] (events (compile_value (snd kv)))).
Lemma events_list vs : events (compile_value (VList vs)) = element "ul" [] (concat (map item_of vs)).
Proof.
  cbn [compile_value]. unfold in_tag, html_tag. cbn [events]. rewrite from_iter_events, flat_map_concat_map, map_map. reflexivity.
Qed.
Lemma events_dict vs : events (compile_value (VDict vs)) = element "table" [(lit "class", Some (lit "tabular-data"))] (concat (map row_of vs)).
Proof.
  cbn [compile_value events]. rewrite from_iter_events, flat_map_concat_map, map_map. unfold element at 1. f_equal. f_equal. f_equal.
  apply map_ext. intros [k v]. unfold in_tag, html_tag, row_of. cbn [events fst snd]. rewrite from_iter_events. cbn [flat_map events].
  rewrite events_text, app_nil_r. reflexivity.
Qed.
Lemma shown_iff v : forall es, Shown v es <-> es = events (compile_value v).
Proof.
  induction v using value_ind'; intros es.
  - split; [inversion 1; reflexivity|]. intros ->. destruct b; [exact sh_true|exact sh_false].
  - cbn [compile_value]. rewrite int_shown, events_text. split.
    + inversion 1 as [| |? s D| | | | | |]; subst. apply decimal_iff in D as ->. reflexivity.
    + intros ->. constructor. now apply decimal_iff.
  - cbn [compile_value]. rewrite events_text. split; [inversion 1; reflexivity|]. intros ->. constructor.
  - unfold compile_value. unfold html_tag. cbn [events]. rewrite events_text. split; [inversion 1; reflexivity|]. intros ->. exact (sh_func f).
  - unfold compile_value. unfold html_tag. cbn [events]. rewrite events_text. split; [inversion 1; reflexivity|]. intros ->. exact (sh_regex r).
  - split; [inversion 1; reflexivity|]. intros ->. constructor.
  - rewrite events_list. rewrite Forall_forall in H. split.
    + inversion 1 as [| | | | |? items F| | |]; subst. f_equal. f_equal. revert F. apply Forall2_map_r.
      intros v b I (es & S & ->). apply (H v I) in S as ->. reflexivity.
    + intros ->. constructor. apply Forall2_map_l. intros v I. eexists. split; [|reflexivity]. now apply (H v I).
  - rewrite events_dict. rewrite Forall_forall in H. split.
    + inversion 1 as [| | | | | |? rows F| |]; subst. f_equal. f_equal. revert F. apply Forall2_map_r.
      intros v b I (es & S & ->). apply (H v I) in S as ->. reflexivity.
    + intros ->. constructor. apply Forall2_map_l. intros v I. eexists. split; [|reflexivity]. now apply (H v I).
Qed.

Lemma html_value_iff h v : Normal h -> (HtmlValue h v <-> v = of_html h).
Proof.
  intro N. split.
  - inversion 1 as [? s E Ne|? T]; subst; [|symmetry; now apply of_html_id].
    rewrite <- events_text in E. apply (events_unique _ _ N (html_text_normal s)) in E as ->.
    unfold html_text. destruct s as [|a [|b s]]; [congruence| |reflexivity]. destruct (N.eqb_spec a 32) as [E|_]; [now rewrite E|].
    destruct (N.eqb_spec a 10) as [E|_]; [now rewrite E|]. reflexivity.
  - intros ->. destruct h; cbn [of_html]; try (apply hv_html; intros []; fail); apply hv_text; try reflexivity; try discriminate.
    inversion N; assumption.
Qed.
Lemma shown_html v h : WfValue v -> Normal h -> (Shown v (events h) <-> h = compile_value v).
Proof.
  intros W N. rewrite shown_iff. split; [|now intros ->]. intro E. apply events_unique; auto. apply (wf_compile_value v W).
Qed.
