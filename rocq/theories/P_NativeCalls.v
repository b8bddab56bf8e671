(** The native functions applied to bound parameters, as equations. *)
From Verif Require Import Base BaseFacts M_Text M_Names M_Html S_Html P_Html M_Tokenizer M_SliceRef S_Util P_Util M_Types M_Token M_Diag M_Ast M_Int M_Value M_State
  M_Binder M_Native S_Native P_Native P_NativeText.

Lemma then_ret_ok {A B} (m : EM A) (g : A -> B) s r s' :
  (let* x := m in ret (g x)) s = Ok r s' <-> exists a, m s = Ok a s' /\ r = g a.
Proof.
  unfold bind, ret. destruct (m s) as [a s1| | |]; split; try discriminate.
  - intros E. injection E as <- <-. eauto.
  - intros (a' & E & ->). injection E as <- <-. reflexivity.
  - intros (a' & E & _). discriminate.
  - intros (a' & E & _). discriminate.
  - intros (a' & E & _). discriminate.
Qed.
Lemma then_ret_err {A B} (m : EM A) (g : A -> B) s e s' : (let* x := m in ret (g x)) s = Err e s' <-> m s = Err e s'.
Proof.
  unfold bind, ret. destruct (m s) as [a s1|e1 s1| |]; split; try discriminate; intros E; injection E as -> ->; reflexivity.
Qed.
Lemma ok_inj {A} (a b : A) s s' : Ok a s = Ok b s' <-> b = a /\ s' = s.
Proof. split; [intros E; injection E as -> ->; auto|intros [-> ->]; reflexivity]. Qed.

Section Calls.
  Variable X : externals.
  Variable call : func -> nmap value -> ty -> str -> EM value.
  Variable load : str -> EM (html * nmap value).
  Variables (bs : nmap value) (src : str) (s : st).
  Notation run f := (evaluate_native_func X call load f bs src s).
  Variable vs : list value.
  Hypothesis Hl : ngetm bs (lit "list") = Some (VList vs).

  Ltac go := unfold evaluate_native_func; repeat match goal with H : ngetm bs _ = Some _ |- _ => rewrite H end; reflexivity.
  Lemma call_sorted kv key reversed : ngetm bs (lit "key") = Some kv -> OptFunc kv key ->
    ngetm bs (lit "reversed") = Some (VBool reversed) ->
    run ListSorted = (let* out := native_sorted call key reversed vs src in ret (VList out)) s.
  Proof. intros Hk Ho Hr. destruct key; cbn in Ho; subst kv; go. Qed.
  Lemma call_map f : ngetm bs (lit "function") = Some (VFunc f) ->
    run ListMap = (let* out := map_list call f vs src in ret (VList out)) s.
  Proof. intros Hf. go. Qed.
  Lemma call_filter f : ngetm bs (lit "function") = Some (VFunc f) ->
    run ListFilter = (let* out := filter_list call f vs src in ret (VList out)) s.
  Proof. intros Hf. go. Qed.
  Lemma call_filter_none : ngetm bs (lit "function") = Some UNIT ->
    run ListFilter = Ok (VList (List.filter (fun v => negb (is_unit v)) vs)) s.
  Proof. intros Hf. go. Qed.
  Lemma call_find f : ngetm bs (lit "function") = Some (VFunc f) ->
    run ListFind = (let* r := find_first call true f vs src in ret match r with Some v => v | None => UNIT end) s.
  Proof. intros Hf. go. Qed.
  Lemma call_any f : ngetm bs (lit "function") = Some (VFunc f) ->
    run ListAny = (let* r := find_first call true f vs src in ret (VBool match r with Some _ => true | None => false end)) s.
  Proof. intros Hf. go. Qed.
  Lemma call_all f : ngetm bs (lit "function") = Some (VFunc f) ->
    run ListAll = (let* r := find_first call false f vs src in ret (VBool match r with Some _ => false | None => true end)) s.
  Proof. intros Hf. go. Qed.
  Lemma call_contains v : ngetm bs (lit "param") = Some v ->
    run ListContains = Ok (VBool (existsb (fun x => value_eqb x v) vs)) s.
  Proof. intros Hf. go. Qed.
  Lemma call_enumerate from : ngetm bs (lit "from") = Some (VInt from) ->
    run ListEnumerate = (let* out := pure FOverflow (enumerate_list X vs 0 from) in ret (VList out)) s.
  Proof. intros Hf. go. Qed.
  Lemma call_flat : run ListFlat = Ok (VList (flatten vs)) s.
  Proof. go. Qed.
  Lemma call_reversed : run ListReversed = Ok (VList (rev vs)) s.
  Proof. go. Qed.
  Lemma call_len : run ListLen = Ok (VInt (Z.of_nat (length vs))) s.
  Proof. go. Qed.
  Lemma call_is_empty : run ListIsEmpty = Ok (VBool match vs with [] => true | _ => false end) s.
  Proof. go. Qed.
  Lemma call_get i : ngetm bs (lit "i") = Some (VInt i) ->
    run ListGet = (let* r := pure FIndex (list_get (sr_from vs) i) in
      match r with Some v => ret v | None => fail (RuntimeErr (IndexOutOfRange i (length vs))) end) s.
  Proof. intros Hf. go. Qed.
  Lemma call_slice a bv b : ngetm bs (lit "a") = Some (VInt a) -> ngetm bs (lit "b") = Some bv ->
    bv = match b with None => UNIT | Some j => VInt j end ->
    run ListSlice = (let* r := pure FIndex (obind (native_slice (sr_from vs) a b) sr_as_ref) in ret (VList r)) s.
  Proof. intros Ha Hb Eb. destruct b; cbn in Eb; subst bv; go. Qed.
  Lemma to_each_html l : forall hs s', to_each to_htmlM l s = Ok hs s' <-> List.map to_html l = List.map Some hs /\ s' = s.
  Proof.
    induction l as [|v l IH]; intros hs s'; cbn [to_each List.map].
    - unfold ret. rewrite ok_inj. split; intros [E ->]; destruct hs; auto; discriminate.
    - unfold bind at 1. unfold to_htmlM at 1. destruct (to_html v) as [h|].
      + cbn [ret]. rewrite then_ret_ok. split.
        * intros (a & E & ->). apply IH in E. destruct E as [E ->]. cbn. split; [congruence|reflexivity].
        * intros [E ->]. destruct hs as [|h' hs]; [discriminate|]. cbn in E. injection E as <- E.
          exists hs. split; [apply IH; auto|reflexivity].
      + split; [discriminate|]. intros [E _]. destruct hs; discriminate.
  Qed.
  Lemma call_join sv sep hs : ngetm bs (lit "sep") = Some sv -> to_html sv = Some sep -> List.map to_html vs = List.map Some hs ->
    run ListJoin = Ok (of_html (join_html sep hs)) s.
  Proof.
    intros Hs Hh Hv. assert (E2 : to_each to_htmlM vs s = Ok hs s) by (apply to_each_html; auto).
    transitivity ((let* sep := to_htmlM sv in let* hs := to_each to_htmlM vs in ret (of_html (join_html sep hs))) s);
      [unfold evaluate_native_func; rewrite Hs, Hl; reflexivity|].
    unfold to_htmlM at 1. rewrite Hh. unfold bind, ret. rewrite E2. reflexivity.
  Qed.
End Calls.

Lemma flatten_spec vs out : flatten vs = out <-> Flattened vs out.
Proof.
  split.
  - intros <-. unfold flatten. induction vs as [|v vs IH]; cbn; [constructor|].
    destruct v; cbn; try (apply Fl_other; [discriminate|exact IH]). apply Fl_list, IH.
  - unfold flatten. induction 1 as [|l vs out H IH|v vs out Hn H IH]; cbn; [reflexivity|rewrite IH; reflexivity|].
    destruct v; cbn; try (rewrite IH; reflexivity). match goal with H : forall l, VList ?x <> VList l |- _ => destruct (H x eq_refl) end.
Qed.
Lemma to_html_of_html h : exists h', to_html (of_html h) = Some h' /\ events h' = events h.
Proof.
  destruct h; cbn; eexists; (split; [reflexivity|]); try reflexivity. rewrite events_html_text. reflexivity.
Qed.
Lemma to_html_of_normal h : Normal h -> to_html (of_html h) = Some h.
Proof.
  intros H. destruct h as [|n a c|l|text| |]; try reflexivity. cbn. inversion H as [| | |s' H1 H2 H3| |]; subst.
  destruct text as [|a [|b t]]; [congruence| |reflexivity].
  unfold html_text. cbn. destruct (N.eqb_spec a 32); [congruence|]. destruct (N.eqb_spec a 10); [congruence|]. reflexivity.
Qed.
Lemma intersperse_spec sep l : Between sep l (intersperse sep l).
Proof.
  induction l as [|x l IH]; [constructor|]. destruct l as [|y l]; [constructor|].
  change (intersperse sep (x :: y :: l)) with (x :: sep :: intersperse sep (y :: l)). constructor. exact IH.
Qed.
Lemma between_empty l out : Between HEmpty l out -> flat_map events out = flat_map events l.
Proof. induction 1 as [|x|x y l out H IH]; try reflexivity. cbn [flat_map]. rewrite IH. reflexivity. Qed.
Lemma between_normal sep l out : Normal sep -> Forall Normal l -> Between sep l out -> Forall Normal out.
Proof. intros Hs Hf H. induction H; inversion_clear Hf; auto. Qed.
Lemma html_is_empty_spec h : html_is_empty h = true -> h = HEmpty.
Proof. destruct h; cbn; congruence. Qed.
Lemma join_html_spec sep l : exists parts, Between sep l parts /\ events (join_html sep l) = flat_map events parts.
Proof.
  exists (intersperse sep l). split; [apply intersperse_spec|]. unfold join_html. destruct l as [|x l]; [reflexivity|].
  destruct (html_is_empty sep) eqn:E; rewrite from_iter_events; [|reflexivity].
  apply html_is_empty_spec in E. subst sep. symmetry. apply between_empty, intersperse_spec.
Qed.
Lemma join_html_normal sep l : Normal sep -> Forall Normal l -> Normal (join_html sep l).
Proof.
  intros Hs Hf. unfold join_html. destruct l as [|x l]; [constructor|].
  destruct (html_is_empty sep); apply from_iter_normal; [exact Hf|]. eapply between_normal; [exact Hs|exact Hf|apply intersperse_spec].
Qed.

Section Texts.
  Variable X : externals.
  Variable call : func -> nmap value -> ty -> str -> EM value.
  Variable load : str -> EM (html * nmap value).
  Variables (bs : nmap value) (src : str) (s : st).
  Notation run f := (evaluate_native_func X call load f bs src s).
  Ltac go := unfold evaluate_native_func; repeat match goal with H : ngetm bs _ = Some _ |- _ => rewrite H end; reflexivity.
  Lemma to_each_int l s0 : to_each to_int (List.map VInt l) s0 = Ok l s0.
  Proof. induction l as [|i l IH]; [reflexivity|]. cbn [List.map to_each]. unfold bind, to_int, ret in *. rewrite IH. reflexivity. Qed.
  Lemma call_add l : ngetm bs (lit "args") = Some (VList (List.map VInt l)) ->
    run IntAdd = (let* n := pure FOverflow (sum_ints X l 0) in ret (VInt n)) s.
  Proof.
    intros H.
    transitivity ((let* is := to_each to_int (List.map VInt l) in let* n := pure FOverflow (sum_ints X is 0) in ret (VInt n)) s); [go|].
    unfold bind at 1. rewrite to_each_int. reflexivity.
  Qed.
  Lemma call_negate i : ngetm bs (lit "param") = Some (VInt i) ->
    run IntNegate = (let* n := pure FOverflow (i64 (x_checks X) (- i)) in ret (VInt n)) s.
  Proof. intros H. go. Qed.
  Lemma call_parse t : ngetm bs (lit "param") = Some (VStr t) ->
    run IntParse = match parse_i64 t with Some i => Ok (VInt i) s | None => Err (RuntimeErr ParseIntError) s end.
  Proof. intros H. unfold evaluate_native_func. rewrite H. cbn. unfold bind. cbn. destruct (parse_i64 t); reflexivity. Qed.
  Lemma call_starts a b : ngetm bs (lit "a") = Some (VStr a) -> ngetm bs (lit "b") = Some (VStr b) ->
    run StrStartsWith = Ok (VBool (starts_with b a)) s.
  Proof. intros Ha Hb. go. Qed.
  Lemma call_ends a b : ngetm bs (lit "a") = Some (VStr a) -> ngetm bs (lit "b") = Some (VStr b) ->
    run StrEndsWith = Ok (VBool (ends_with b a)) s.
  Proof. intros Ha Hb. go. Qed.
  Lemma call_split sep t : ngetm bs (lit "sep") = Some (VStr sep) -> ngetm bs (lit "str") = Some (VStr t) ->
    run StrSplit = Ok (VList (List.map VStr (str_split sep t))) s.
  Proof. intros Ha Hb. go. Qed.
  Variable d : nmap value.
  Hypothesis Hd : ngetm bs (lit "dict") = Some (VDict d).
  Lemma call_dict_get k : ngetm bs (lit "key") = Some (VStr k) ->
    run DictGet = match ngetm d k with Some v => Ok v s | None => Err (NameErr (NoSuchAttribute (TDict TAny) k)) s end.
  Proof. intros H. unfold evaluate_native_func. rewrite H, Hd. cbn. unfold bind. cbn. destruct (ngetm d k); reflexivity. Qed.
  Lemma call_dict_keys : run DictKeys = Ok (VList (List.map VStr (nkeys d))) s.
  Proof. go. Qed.
  Lemma call_dict_values : run DictValues = Ok (VList (nvalues d)) s.
  Proof. go. Qed.
  Lemma call_dict_items : run DictItems = Ok (VList (List.map (fun kv => VList [VStr (fst kv); snd kv]) d)) s.
  Proof. go. Qed.
  Lemma call_dict_len : run DictLen = Ok (VInt (Z.of_nat (length d))) s.
  Proof. go. Qed.
  Lemma call_dict_is_empty : run DictIsEmpty = Ok (VBool match d with [] => true | _ => false end) s.
  Proof. go. Qed.
End Texts.
Lemma prefixes_or l : (forall i, i <= length l -> Int64 (sum (firstn i l))) \/ exists i, i <= length l /\ ~ Int64 (sum (firstn i l)).
Proof.
  assert (H : forall n, (forall i, i <= n -> Int64 (sum (firstn i l))) \/ exists i, i <= n /\ ~ Int64 (sum (firstn i l))).
  { induction n as [|n [IH | (i & Hi & Hn)]].
    - left. intros i Hi. replace i with 0 by lia. cbn. unfold Int64. lia.
    - destruct (i64_ok (sum (firstn (S n) l))) eqn:E.
      + apply i64_ok_spec in E. left. intros i Hi. destruct (Nat.eq_dec i (S n)) as [-> | Hne]; [exact E|apply IH; lia].
      + right. exists (S n). split; [lia|]. rewrite <- i64_ok_spec. congruence.
    - right. exists i. split; [lia|exact Hn]. }
  apply H.
Qed.
Lemma nth_error_combine {A} : forall (l : list A) a n j v, n = length l -> nth_error l j = Some v -> nth_error (combine (seq a n) l) j = Some (a + j, v).
Proof.
  induction l as [|x l IH]; intros a n j v -> H; [destruct j; discriminate|]. cbn. destruct j as [|j]; cbn in *.
  - rewrite Nat.add_0_r. congruence.
  - rewrite (IH (S a) (length l) j v eq_refl H). f_equal. f_equal. lia.
Qed.
