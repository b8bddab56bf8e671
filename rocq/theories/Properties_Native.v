(** Property theorems C38, C48, C49, C52, C53 (native functions). In all of them [X] are the externals, [call] is how a
    call with bound parameters is evaluated, [load] is how a module is loaded and [bs] are the bound parameters. *)
From Coq Require Import Permutation Sorted.
From Verif Require Import Base BaseFacts M_Text M_Names M_Html S_Html P_Html M_SliceRef S_Util P_Util M_Types M_Token M_Diag M_Ast M_Int M_Value M_State
  M_Binder M_Native M_Eval S_Types P_Types P_Coerce S_Native S_Equal P_Equal P_Sort P_Native P_NativeText P_NativeCalls S_Example.

(** C39. Values are equal exactly by the rules of [Equal]. *)
Theorem C39_equality_means : forall a b, WfValue a -> WfValue b -> (value_eqb a b = true <-> Equal a b).
Proof. exact value_equal. Qed.
Print Assumptions C39_equality_means.

(** C38. [list::sorted] succeeds exactly when the keys can be computed, one after the other, and are all integers or all
    strings; the result is the stable sort by key. *)
Theorem C38_sorted : forall X call load bs src s kv key reversed vs r s',
  ngetm bs (lit "key") = Some kv -> OptFunc kv key -> ngetm bs (lit "reversed") = Some (VBool reversed) ->
  ngetm bs (lit "list") = Some (VList vs) ->
  (evaluate_native_func X call load ListSorted bs src s = Ok r s' <->
   exists ks sorted, InTurn (KeyOf call key src) vs s ks s' /\ Comparable ks /\
     StablySorted reversed (combine ks vs) sorted /\ r = VList (List.map snd sorted)).
Proof.
  intros X call load bs src s kv key reversed vs r s' Hk Ho Hr Hl.
  rewrite (call_sorted X call load bs src s vs Hl kv key reversed Hk Ho Hr), then_ret_ok. split.
  - intros (out & E & ->). apply sorted_ok in E. destruct E as (ks & sorted & H1 & H2 & H3 & ->). exists ks, sorted. auto.
  - intros (ks & sorted & H1 & H2 & H3 & ->). exists (List.map snd sorted). split; [|reflexivity]. apply sorted_ok. exists ks, sorted. auto.
Qed.
Print Assumptions C38_sorted.
(** There is only one such order. *)
Theorem C38_unique : forall reversed ks vs out out', Comparable ks ->
  StablySorted reversed (combine ks vs) out -> StablySorted reversed (combine ks vs) out' -> out = out'.
Proof.
  intros reversed ks vs out out' Hc. apply stably_sorted_unique. apply Forall_forall. intros [k v] H. apply in_combine_l in H.
  eapply comparable_key; eassumption.
Qed.
Print Assumptions C38_unique.
(** It fails exactly at the first element whose key cannot be computed, is neither an integer nor a string, or is not of the
    same kind as the keys before it. *)
Theorem C38_rejected : forall X call load bs src s kv key reversed vs e s',
  ngetm bs (lit "key") = Some kv -> OptFunc kv key -> ngetm bs (lit "reversed") = Some (VBool reversed) ->
  ngetm bs (lit "list") = Some (VList vs) ->
  (evaluate_native_func X call load ListSorted bs src s = Err e s' <->
   exists before v after ks s1, vs = before ++ v :: after /\ InTurn (KeyOf call key src) before s ks s1 /\ Comparable ks /\
     (KeyFails call key src v s1 e s' \/
      exists k, KeyOf call key src v s1 k s' /\
        ((~ IsKey k /\ e = TypeErr (SortKeyInvalid (get_type k))) \/
         (IsKey k /\ ~ Comparable (ks ++ [k]) /\ e = TypeErr SortKeyHeterogeneous)))).
Proof.
  intros X call load bs src s kv key reversed vs e s' Hk Ho Hr Hl.
  rewrite (call_sorted X call load bs src s vs Hl kv key reversed Hk Ho Hr), then_ret_err. apply sorted_err.
Qed.
Print Assumptions C38_rejected.

Definition ex_args (l : list (string * value)) : nmap value := List.map (fun nv => (lit (fst nv), snd nv)) l.
Definition ex_eval := e_call (evals_n ex_X 9).
Definition ex_load (p : str) : EM (html * nmap value) := fail (ModuleErr (IOError p)).
(** callbacks: the natives [str::len] and [str::is_empty] *)
Definition ex_len : func := FNative StrLen (lit "len") (native_sig StrLen).
Definition ex_is_empty : func := FNative StrIsEmpty (lit "is_empty") (native_sig StrIsEmpty).
Definition ex_run (f : native_func) (l : list (string * value)) := evaluate_native_func ex_X ex_eval ex_load f (ex_args l) (lit "m") ex_scoped.
Example C38_nonvacuous :
  ex_run ListSorted [("key", VFunc ex_len); ("reversed", VBool true); ("list", VList [VStr (lit "a"); VStr (lit "bb"); VStr (lit "c"); VStr (lit "dd")])]%string
    = Ok (VList [VStr (lit "bb"); VStr (lit "dd"); VStr (lit "a"); VStr (lit "c")]) ex_scoped /\
  ex_run ListSorted [("key", UNIT); ("reversed", VBool false); ("list", VList [VInt 3; VStr (lit "x")])]%string
    = Err (TypeErr SortKeyHeterogeneous) ex_scoped.
Proof. split; vm_compute; reflexivity. Qed.

(** C48. [list::map]: the function is applied to the elements from left to right; the results in order, or the first error. *)
Theorem C48_map : forall X call load bs src s f vs,
  ngetm bs (lit "function") = Some (VFunc f) -> ngetm bs (lit "list") = Some (VList vs) ->
  (forall r s', evaluate_native_func X call load ListMap bs src s = Ok r s' <->
     exists out, InTurn (Returns call TAny f src) vs s out s' /\ r = VList out) /\
  (forall e s', evaluate_native_func X call load ListMap bs src s = Err e s' <->
     FailsAt (Returns call TAny f src) (Fails call TAny f src) vs s e s').
Proof.
  intros X call load bs src s f vs Hf Hl. rewrite (call_map X call load bs src s vs Hl f Hf). split.
  - intros r s'. rewrite then_ret_ok. split; intros (out & H & ->); exists out; (split; [apply map_ok, H|reflexivity]).
  - intros e s'. rewrite then_ret_err. apply map_err.
Qed.
Print Assumptions C48_map.

(** [list::filter]: the elements for which the predicate answers true, in order; without a predicate, the elements that are
    not none. *)
Theorem C48_filter : forall X call load bs src s f vs,
  ngetm bs (lit "function") = Some (VFunc f) -> ngetm bs (lit "list") = Some (VList vs) ->
  (forall r s', evaluate_native_func X call load ListFilter bs src s = Ok r s' <->
     exists flags, InTurn (Answers call f src) vs s flags s' /\ r = VList (selected vs flags)) /\
  (forall e s', evaluate_native_func X call load ListFilter bs src s = Err e s' <->
     FailsAt (Answers call f src) (Fails call TBool f src) vs s e s').
Proof.
  intros X call load bs src s f vs Hf Hl. rewrite (call_filter X call load bs src s vs Hl f Hf). split.
  - intros r s'. rewrite then_ret_ok. split.
    + intros (out & H & ->). apply filter_ok in H. destruct H as (flags & H & ->). eauto.
    + intros (flags & H & ->). exists (selected vs flags). split; [apply filter_ok; eauto|reflexivity].
  - intros e s'. rewrite then_ret_err. apply filter_err.
Qed.
Print Assumptions C48_filter.
Theorem C48_filter_none : forall X call load bs src s vs,
  ngetm bs (lit "function") = Some UNIT -> ngetm bs (lit "list") = Some (VList vs) ->
  exists out, evaluate_native_func X call load ListFilter bs src s = Ok (VList out) s /\
    out = selected vs (List.map (fun v => match v with VHtml HEmpty => false | _ => true end) vs).
Proof.
  intros X call load bs src s vs Hf Hl. eexists. split; [apply (call_filter_none X call load bs src s vs Hl Hf)|].
  clear Hl. induction vs as [|v vs IH]; cbn; [reflexivity|]. rewrite IH. destruct v as [| | | | |[]| |]; reflexivity.
Qed.
Print Assumptions C48_filter_none.

(** [list::find], [list::any] and [list::all] ask about the elements from left to right and stop at the first that settles
    the answer. *)
Theorem C48_find : forall X call load bs src s f vs r s',
  ngetm bs (lit "function") = Some (VFunc f) -> ngetm bs (lit "list") = Some (VList vs) ->
  (evaluate_native_func X call load ListFind bs src s = Ok r s' <->
   FirstAnswer (Answers call f src) true vs s r s' \/ (AllAnswer (Answers call f src) false vs s s' /\ r = UNIT)).
Proof.
  intros X call load bs src s f vs r s' Hf Hl. rewrite (call_find X call load bs src s vs Hl f Hf), then_ret_ok. split.
  - intros ([v|] & H & ->); [left; apply find_some, H|right]. split; [apply find_none in H; exact H|reflexivity].
  - intros [H | [H ->]]; [exists (Some r)|exists None]; (split; [|reflexivity]); [apply find_some, H|apply find_none, H].
Qed.
Print Assumptions C48_find.
Theorem C48_any : forall X call load bs src s f vs r s',
  ngetm bs (lit "function") = Some (VFunc f) -> ngetm bs (lit "list") = Some (VList vs) ->
  (evaluate_native_func X call load ListAny bs src s = Ok r s' <->
   ((exists v, FirstAnswer (Answers call f src) true vs s v s') /\ r = VBool true) \/
   (AllAnswer (Answers call f src) false vs s s' /\ r = VBool false)).
Proof.
  intros X call load bs src s f vs r s' Hf Hl. rewrite (call_any X call load bs src s vs Hl f Hf), then_ret_ok. split.
  - intros ([v|] & H & ->); [left; split; [exists v; apply find_some, H|reflexivity]|right]. split; [apply find_none in H; exact H|reflexivity].
  - intros [[[v H] ->] | [H ->]]; [exists (Some v)|exists None]; (split; [|reflexivity]); [apply find_some, H|apply find_none, H].
Qed.
Print Assumptions C48_any.
Theorem C48_all : forall X call load bs src s f vs r s',
  ngetm bs (lit "function") = Some (VFunc f) -> ngetm bs (lit "list") = Some (VList vs) ->
  (evaluate_native_func X call load ListAll bs src s = Ok r s' <->
   ((exists v, FirstAnswer (Answers call f src) false vs s v s') /\ r = VBool false) \/
   (AllAnswer (Answers call f src) true vs s s' /\ r = VBool true)).
Proof.
  intros X call load bs src s f vs r s' Hf Hl. rewrite (call_all X call load bs src s vs Hl f Hf), then_ret_ok. split.
  - intros ([v|] & H & ->); [left; split; [exists v; apply find_some, H|reflexivity]|right]. split; [apply find_none in H; exact H|reflexivity].
  - intros [[[v H] ->] | [H ->]]; [exists (Some v)|exists None]; (split; [|reflexivity]); [apply find_some, H|apply find_none, H].
Qed.
Print Assumptions C48_all.
(** They fail exactly if the predicate fails before the answer is settled. *)
Theorem C48_search_fails : forall X call load bs src s f vs e s',
  ngetm bs (lit "function") = Some (VFunc f) -> ngetm bs (lit "list") = Some (VList vs) ->
  (forall g settles, In (g, settles) [(ListFind, true); (ListAny, true); (ListAll, false)] ->
   evaluate_native_func X call load g bs src s = Err e s' <->
   exists before v after s1, vs = before ++ v :: after /\ AllAnswer (Answers call f src) (negb settles) before s s1 /\
     Fails call TBool f src v s1 e s').
Proof.
  intros X call load bs src s f vs e s' Hf Hl g settles [E|[E|[E|[]]]]; injection E as <- <-;
    [rewrite (call_find X call load bs src s vs Hl f Hf)|rewrite (call_any X call load bs src s vs Hl f Hf)|
     rewrite (call_all X call load bs src s vs Hl f Hf)]; rewrite then_ret_err; apply find_err.
Qed.
Print Assumptions C48_search_fails.

(** The functions without callbacks. *)
Theorem C48_contains : forall X call load bs src s v vs, WfValue v -> Forall WfValue vs ->
  ngetm bs (lit "param") = Some v -> ngetm bs (lit "list") = Some (VList vs) ->
  exists b, evaluate_native_func X call load ListContains bs src s = Ok (VBool b) s /\
    (b = true <-> exists x, In x vs /\ Equal x v).
Proof.
  intros X call load bs src s v vs Wv Ws Hv Hl. eexists. split; [apply (call_contains X call load bs src s vs Hl v Hv)|].
  rewrite existsb_exists. rewrite Forall_forall in Ws. split; intros (x & I & E); exists x; (split; [exact I|]); apply value_equal; auto.
Qed.
Print Assumptions C48_contains.
Theorem C48_flat : forall X call load bs src s vs, ngetm bs (lit "list") = Some (VList vs) ->
  exists out, evaluate_native_func X call load ListFlat bs src s = Ok (VList out) s /\
    (forall out', Flattened vs out' <-> out' = out).
Proof.
  intros X call load bs src s vs Hl. eexists. split; [apply (call_flat X call load bs src s vs Hl)|].
  intros out'. rewrite <- flatten_spec. split; congruence.
Qed.
Print Assumptions C48_flat.
Theorem C48_reversed_len : forall X call load bs src s vs, ngetm bs (lit "list") = Some (VList vs) ->
  (exists out, evaluate_native_func X call load ListReversed bs src s = Ok (VList out) s /\ length out = length vs /\
     forall i, i < length vs -> nth_error out i = nth_error vs (length vs - 1 - i)) /\
  evaluate_native_func X call load ListLen bs src s = Ok (VInt (Z.of_nat (length vs))) s /\
  exists b, evaluate_native_func X call load ListIsEmpty bs src s = Ok (VBool b) s /\ (b = true <-> vs = []).
Proof.
  intros X call load bs src s vs Hl. split; [|split].
  - eexists. split; [apply (call_reversed X call load bs src s vs Hl)|]. split; [apply rev_length|].
    intros i Hi. destruct (nth_error vs (length vs - 1 - i)) as [x|] eqn:E; [|apply nth_error_None in E; lia].
    rewrite (nth_error_nth' (rev vs) x) by (rewrite rev_length; exact Hi). rewrite rev_nth by exact Hi.
    replace (length vs - S i) with (length vs - 1 - i) by lia. f_equal. apply nth_error_nth. exact E.
  - apply (call_len X call load bs src s vs Hl).
  - eexists. split; [apply (call_is_empty X call load bs src s vs Hl)|]. destruct vs; split; congruence.
Qed.
Print Assumptions C48_reversed_len.
(** [list::join]: the separator goes between any two elements, and the result is in normal form if the parts are. *)
Theorem C48_join : forall X call load bs src s sv sep vs hs,
  ngetm bs (lit "sep") = Some sv -> to_html sv = Some sep ->
  ngetm bs (lit "list") = Some (VList vs) -> List.map to_html vs = List.map Some hs ->
  exists r h parts, evaluate_native_func X call load ListJoin bs src s = Ok r s /\ to_html r = Some h /\
    Between sep hs parts /\ events h = flat_map events parts /\ (Normal sep -> Forall Normal hs -> Normal h).
Proof.
  intros X call load bs src s sv sep vs hs Hs Hh Hl Hv. exists (of_html (join_html sep hs)).
  destruct (join_html_spec sep hs) as (parts & Hb & He). destruct (to_html_of_html (join_html sep hs)) as (h & E & Eh).
  exists h, parts. split; [apply (call_join X call load bs src s vs Hl sv sep hs Hs Hh Hv)|]. split; [exact E|]. split; [exact Hb|].
  split; [congruence|]. intros Ns Nf. pose proof (join_html_normal _ _ Ns Nf) as N. rewrite (to_html_of_normal _ N) in E. injection E as <-. exact N.
Qed.
Print Assumptions C48_join.
(** [list::get] and [list::slice] are those of C11. *)
Theorem C48_get_slice : forall X call load bs src s vs, ngetm bs (lit "list") = Some (VList vs) ->
  (forall i, ngetm bs (lit "i") = Some (VInt i) ->
     (forall v s', evaluate_native_func X call load ListGet bs src s = Ok v s' <-> ElementAt vs i v /\ s' = s) /\
     ((i < - Z.of_nat (length vs) \/ Z.of_nat (length vs) <= i)%Z ->
        evaluate_native_func X call load ListGet bs src s = Err (RuntimeErr (IndexOutOfRange i (length vs))) s)) /\
  (forall a b, ngetm bs (lit "a") = Some (VInt a) -> ngetm bs (lit "b") = Some (match b with None => UNIT | Some j => VInt j end) ->
     exists out, evaluate_native_func X call load ListSlice bs src s = Ok (VList out) s /\
       Slice vs a (match b with Some j => j | None => Z.of_nat (length vs) end) out).
Proof.
  intros X call load bs src s vs Hl. split.
  - intros i Hi. rewrite (call_get X call load bs src s vs Hl i Hi).
    destruct (list_get_spec (sr_from vs) vs i (sr_from_view vs)) as (H1 & H2 & H3 & H4). split.
    + intros v s'. unfold bind, pure. destruct (list_get (sr_from vs) i) as [[x|]| |] eqn:E; try congruence; cbn.
      * rewrite ok_inj, <- H1. split; intros [A B]; split; congruence.
      * split; [discriminate|]. rewrite <- H1. intros [A _]. discriminate.
    + intros H. apply H2 in H. unfold bind, pure. rewrite H. reflexivity.
  - intros a b Ha Hb. rewrite (call_slice X call load bs src s vs Hl a _ b Ha Hb eq_refl).
    destruct (native_slice_spec (sr_from vs) vs a b (sr_from_view vs)) as (s' & out & E1 & E2 & E3).
    exists out. split; [|exact E3]. unfold bind, pure. rewrite E1. cbn [obind]. rewrite E2. reflexivity.
Qed.
Print Assumptions C48_get_slice.

Example C48_nonvacuous :
  ex_run ListMap [("function", VFunc ex_len); ("list", VList [VStr (lit "a"); VStr (lit "bb")])]%string = Ok (VList [VInt 1; VInt 2]) ex_scoped /\
  (exists s e, ex_run ListMap [("function", VFunc ex_len); ("list", VList [VStr (lit "a"); VFunc ex_len; VInt 1])]%string = Err e s) /\
  ex_run ListFilter [("function", VFunc ex_is_empty); ("list", VList [VStr (lit "a"); VStr []])]%string = Ok (VList [VStr []]) ex_scoped /\
  ex_run ListFind [("function", VFunc ex_is_empty); ("list", VList [VStr (lit "a"); VStr []])]%string = Ok (VStr []) ex_scoped /\
  ex_run ListAll [("function", VFunc ex_is_empty); ("list", VList [VStr (lit "a"); VFunc ex_len])]%string = Ok (VBool false) ex_scoped /\
  ex_run ListFlat [("list", VList [VInt 1; VList [VInt 2; VList []]])]%string = Ok (VList [VInt 1; VInt 2; VList []]) ex_scoped /\
  ex_run ListJoin [("sep", VStr (lit ", ")); ("list", VList [VStr (lit "a"); VHtml (HTag (lit "b") [] HEmpty)])]%string
    = Ok (VHtml (HSeq [HText (lit "a, "); HTag (lit "b") [] HEmpty])) ex_scoped.
Proof. repeat (split; [vm_compute; try reflexivity; do 2 eexists; reflexivity|]). vm_compute. reflexivity. Qed.

(** C49. As long as no sum or negation leaves the range of 64-bit integers, the results are exact (whether overflow checks
    are compiled in or not). *)
Theorem C49_exact_partial : forall X call load bs src s,
  (forall l, ngetm bs (lit "args") = Some (VList (List.map VInt l)) -> (forall i, i <= length l -> Int64 (sum (firstn i l))) ->
     evaluate_native_func X call load IntAdd bs src s = Ok (VInt (sum l)) s) /\
  (forall i, ngetm bs (lit "param") = Some (VInt i) -> Int64 (- i) ->
     evaluate_native_func X call load IntNegate bs src s = Ok (VInt (- i)) s) /\
  (forall from vs, ngetm bs (lit "from") = Some (VInt from) -> ngetm bs (lit "list") = Some (VList vs) ->
     (forall j, j < length vs -> Int64 (from + Z.of_nat j)) ->
     exists out, evaluate_native_func X call load ListEnumerate bs src s = Ok (VList out) s /\ length out = length vs /\
       forall j v, nth_error vs j = Some v -> nth_error out j = Some (VList [VInt (from + Z.of_nat j); v])).
Proof.
  intros X call load bs src s. split; [|split].
  - intros l Hl Hi.
    assert (Hs : sum_ints X l 0 = Ret (sum l)).
    { destruct (x_checks X) eqn:Ex.
      - rewrite (sum_checked X l Ex 0); [reflexivity|]. intros i _ H. apply Hi, H.
      - rewrite (sum_unchecked X l Ex 0) by (unfold Int64; lia). rewrite Z.add_0_l, wrap_same; [reflexivity|].
        rewrite <- (firstn_all l). apply Hi. lia. }
    rewrite (call_add X call load bs src s l Hl). unfold bind, pure. rewrite Hs. reflexivity.
  - intros i Hi Hr. rewrite (call_negate X call load bs src s i Hi). unfold bind, pure. rewrite i64_exact by exact Hr. reflexivity.
  - intros from vs Hf Hl Hr. rewrite (call_enumerate X call load bs src s vs Hl from Hf). unfold bind, pure.
    rewrite enumerate_exact by exact Hr. eexists. split; [reflexivity|]. split; [rewrite map_length, combine_length, seq_length; lia|].
    intros j v Hj. rewrite nth_error_map, (nth_error_combine vs 0 _ j v eq_refl Hj). reflexivity.
Qed.
Print Assumptions C49_exact_partial.
(** Otherwise: with overflow checks, the compiler crashes (exactly if some intermediate result is out of range) ... *)
Theorem C49_overflow_crash_refuted : forall X call load, x_checks X = true -> exists bs src s l,
  ngetm bs (lit "args") = Some (VList (List.map VInt l)) /\ Forall Int64 l /\ Int64 (sum l) /\
  evaluate_native_func X call load IntAdd bs src s = Crash FOverflow.
Proof.
  intros X call load Hx. exists [(lit "args", VList (List.map VInt [9223372036854775807; 1; -1]%Z))], [], ex_scoped, [9223372036854775807; 1; -1]%Z.
  split; [reflexivity|]. split; [repeat constructor; unfold Int64; cbn; lia|]. split; [unfold Int64; cbn; lia|].
  rewrite (call_add X call load _ _ _ [9223372036854775807; 1; -1]%Z) by reflexivity. unfold bind, pure.
  rewrite (sum_panics X _ Hx 0 2); [reflexivity|lia|cbn; lia|]. unfold Int64. cbn. lia.
Qed.
Print Assumptions C49_overflow_crash_refuted.
(** ... and without them, the results wrap around: the sum, negation or number is exact only up to a multiple of 2^64. *)
Theorem C49_overflow_wrap_refuted : forall X call load, x_checks X = false -> exists bs src s i r,
  ngetm bs (lit "param") = Some (VInt i) /\ Int64 i /\ Int64 r /\ r <> (- i)%Z /\
  evaluate_native_func X call load IntNegate bs src s = Ok (VInt r) s.
Proof.
  intros X call load Hx. exists [(lit "param", VInt (-9223372036854775808))], [], ex_scoped, (-9223372036854775808)%Z, (-9223372036854775808)%Z.
  split; [reflexivity|]. split; [unfold Int64; lia|]. split; [unfold Int64; lia|]. split; [lia|].
  rewrite (call_negate X call load _ _ _ (-9223372036854775808)%Z) by reflexivity. unfold bind, pure. rewrite Hx. reflexivity.
Qed.
Print Assumptions C49_overflow_wrap_refuted.
(** What the results are in every case. *)
Theorem C49_all_cases : forall X call load bs src s l,
  ngetm bs (lit "args") = Some (VList (List.map VInt l)) -> Forall Int64 l ->
  (x_checks X = false -> exists r, evaluate_native_func X call load IntAdd bs src s = Ok (VInt r) s /\
     Int64 r /\ (exists k, r = sum l + k * 2 ^ 64)%Z /\ (Int64 (sum l) -> r = sum l)) /\
  (x_checks X = true ->
     (evaluate_native_func X call load IntAdd bs src s = Ok (VInt (sum l)) s <-> forall i, i <= length l -> Int64 (sum (firstn i l))) /\
     (evaluate_native_func X call load IntAdd bs src s = Crash FOverflow <-> exists i, i <= length l /\ ~ Int64 (sum (firstn i l)))).
Proof.
  intros X call load bs src s l Hl Hf. rewrite (call_add X call load bs src s l Hl). unfold bind, pure. split.
  - intros Hx. rewrite (sum_unchecked X l Hx 0) by (unfold Int64; lia). rewrite Z.add_0_l. exists (i64_wrap (sum l)).
    split; [reflexivity|]. destruct (int64_wrap (sum l)) as [H1 H2]. split; [exact H1|]. split; [exact H2|]. apply wrap_same.
  - intros Hx. destruct (prefixes_or l) as [H | (i & Hi & Hn)].
    + rewrite (sum_checked X l Hx 0) by (intros; apply H; assumption). cbn. split; [split; auto|].
      split; [discriminate|]. intros (i & Hi & Hn). destruct (Hn (H i Hi)).
    + assert (0 < i) by (destruct i; [destruct Hn; cbn; unfold Int64; lia|lia]).
      rewrite (sum_panics X l Hx 0 i) by assumption. split; [split; [discriminate|]; intros H'; destruct (Hn (H' i Hi))|].
      split; [intros _; eauto|reflexivity].
Qed.
Print Assumptions C49_all_cases.
Example C49_nonvacuous :
  ex_run IntAdd [("args", VList [VInt 9223372036854775806; VInt 1; VInt (-5)])]%string = Ok (VInt 9223372036854775802) ex_scoped /\
  ex_run ListEnumerate [("from", VInt 7); ("list", VList [UNIT; VBool true])]%string
    = Ok (VList [VList [VInt 7; UNIT]; VList [VInt 8; VBool true]]) ex_scoped.
Proof. split; vm_compute; reflexivity. Qed.

(** C52. String functions. *)
Theorem C52_affixes : forall X call load bs src s a b,
  ngetm bs (lit "a") = Some (VStr a) -> ngetm bs (lit "b") = Some (VStr b) ->
  (exists r, evaluate_native_func X call load StrStartsWith bs src s = Ok (VBool r) s /\ (r = true <-> exists t, a = b ++ t)) /\
  (exists r, evaluate_native_func X call load StrEndsWith bs src s = Ok (VBool r) s /\ (r = true <-> exists t, a = t ++ b)).
Proof.
  intros X call load bs src s a b Ha Hb. split; eexists.
  - split; [apply (call_starts X call load bs src s a b Ha Hb)|apply starts_with_spec].
  - split; [apply (call_ends X call load bs src s a b Ha Hb)|apply ends_with_spec].
Qed.
Print Assumptions C52_affixes.
(** [str::split]: the parts between the leftmost occurrences of the separator, of which there is only one list; an empty
    separator splits between any two characters and at both ends. *)
Theorem C52_split : forall X call load bs src s sep str,
  ngetm bs (lit "sep") = Some (VStr sep) -> ngetm bs (lit "str") = Some (VStr str) ->
  exists parts, evaluate_native_func X call load StrSplit bs src s = Ok (VList (List.map VStr parts)) s /\
    (sep <> [] -> forall parts', SplitBy sep str parts' <-> parts' = parts) /\
    (sep = [] -> parts = [] :: List.map (fun c => [c]) str ++ [[]]).
Proof.
  intros X call load bs src s sep str Hs Hv. eexists. split; [apply (call_split X call load bs src s sep str Hs Hv)|]. split.
  - intros Hne parts'.
    assert (E : str_split sep str = split_on sep 0 str) by (destruct sep; [congruence|reflexivity]). rewrite E.
    pose proof (split_on_spec sep Hne (length str) str (Nat.le_refl _)) as H. split; [|intros ->; exact H].
    intros H'. exact (split_by_unique sep Hne str parts' H' _ H).
  - intros ->. reflexivity.
Qed.
Print Assumptions C52_split.
(** [int::parse] accepts exactly the decimal numerals, with an optional sign, of 64-bit integers, and returns the number. *)
Theorem C52_parse : forall X call load bs src s str, ngetm bs (lit "param") = Some (VStr str) ->
  (forall i, evaluate_native_func X call load IntParse bs src s = Ok (VInt i) s <-> Denotes str i /\ Int64 i) /\
  ((forall i, Denotes str i -> ~ Int64 i) -> evaluate_native_func X call load IntParse bs src s = Err (RuntimeErr ParseIntError) s) /\
  (forall i j, Denotes str i -> Denotes str j -> i = j).
Proof.
  intros X call load bs src s str Hs. rewrite (call_parse X call load bs src s str Hs). split; [|split].
  - intros i. rewrite <- parse_i64_spec. destruct (parse_i64 str); cbn; [rewrite ok_inj|]; split; try congruence; try discriminate.
    + intros [E _]. congruence.
    + intros E. split; congruence.
  - intros H. destruct (parse_i64 str) as [i|] eqn:E; [|reflexivity]. apply parse_i64_spec in E. destruct E as [E1 E2]. destruct (H i E1 E2).
  - intros i j. apply denotes_unique.
Qed.
Print Assumptions C52_parse.
Example C52_nonvacuous :
  ex_run StrSplit [("sep", VStr (lit "aa")); ("str", VStr (lit "aaab"))]%string = Ok (VList [VStr []; VStr (lit "ab")]) ex_scoped /\
  ex_run IntParse [("param", VStr (lit "-0042"))]%string = Ok (VInt (-42)) ex_scoped /\
  ex_run IntParse [("param", VStr (lit "9223372036854775808"))]%string = Err (RuntimeErr ParseIntError) ex_scoped /\
  ex_run StrEndsWith [("a", VStr (lit "abc")); ("b", VStr (lit "bc"))]%string = Ok (VBool true) ex_scoped.
Proof. repeat split; vm_compute; reflexivity. Qed.

(** C53. Dictionary functions, on a dictionary (keys are distinct): the value of a key or an error; the keys, the values and
    the pairs of both, in the same order. *)
Theorem C53_dict : forall X call load bs src s d, ngetm bs (lit "dict") = Some (VDict d) -> NoDup (List.map fst d) ->
  (forall k, ngetm bs (lit "key") = Some (VStr k) ->
     (forall v s', evaluate_native_func X call load DictGet bs src s = Ok v s' <-> In (k, v) d /\ s' = s) /\
     ((forall v, ~ In (k, v) d) -> evaluate_native_func X call load DictGet bs src s = Err (NameErr (NoSuchAttribute (TDict TAny) k)) s)) /\
  (exists ks vs items, evaluate_native_func X call load DictKeys bs src s = Ok (VList ks) s /\
     evaluate_native_func X call load DictValues bs src s = Ok (VList vs) s /\
     evaluate_native_func X call load DictItems bs src s = Ok (VList items) s /\
     length ks = length d /\ length vs = length d /\ length items = length d /\
     forall i k v, nth_error d i = Some (k, v) ->
       nth_error ks i = Some (VStr k) /\ nth_error vs i = Some v /\ nth_error items i = Some (VList [VStr k; v])) /\
  evaluate_native_func X call load DictLen bs src s = Ok (VInt (Z.of_nat (length d))) s /\
  exists b, evaluate_native_func X call load DictIsEmpty bs src s = Ok (VBool b) s /\ (b = true <-> d = []).
Proof.
  intros X call load bs src s d Hd Hn. split; [|split; [|split]].
  - intros k Hk. rewrite (call_dict_get X call load bs src s d Hd k Hk). split.
    + intros v s'. destruct (ngetm d k) as [w|] eqn:E.
      * apply ngetm_In in E. rewrite ok_inj. split; [intros [-> ->]; auto|]. intros [H ->]. split; [|reflexivity].
        pose proof (ngetm_NoDup d k v Hn H) as E1. pose proof (ngetm_NoDup d k w Hn E) as E2. congruence.
      * split; [discriminate|]. intros [H _]. rewrite (ngetm_NoDup d k v Hn H) in E. discriminate.
    + intros H. destruct (ngetm d k) as [w|] eqn:E; [|reflexivity]. apply ngetm_In in E. destruct (H w E).
  - do 3 eexists. split; [apply (call_dict_keys X call load bs src s d Hd)|]. split; [apply (call_dict_values X call load bs src s d Hd)|].
    split; [apply (call_dict_items X call load bs src s d Hd)|]. unfold nkeys, nvalues. rewrite !map_length. do 3 (split; [reflexivity|]).
    intros i k v Hi. rewrite !nth_error_map, Hi. auto.
  - apply (call_dict_len X call load bs src s d Hd).
  - eexists. split; [apply (call_dict_is_empty X call load bs src s d Hd)|]. destruct d; split; congruence.
Qed.
Print Assumptions C53_dict.
Example C53_nonvacuous :
  let d := VDict [(lit "b", VInt 1); (lit "a", VInt 2)] in
  ex_run DictGet [("dict", d); ("key", VStr (lit "a"))]%string = Ok (VInt 2) ex_scoped /\
  ex_run DictItems [("dict", d)]%string = Ok (VList [VList [VStr (lit "b"); VInt 1]; VList [VStr (lit "a"); VInt 2]]) ex_scoped.
Proof. split; vm_compute; reflexivity. Qed.
