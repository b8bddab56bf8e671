(** Proofs about the native functions (C38, C48, C49, C52, C53). *)
From Coq Require Import Permutation Sorted.
From Verif Require Import Base BaseFacts M_Text M_Names M_Html S_Html P_Html M_SliceRef S_Util P_Util M_Types M_Token M_Diag M_Ast M_Int M_Value M_State
  M_Binder M_Native S_Native P_Sort.

(** *** Steps in turn *)
Lemma in_turn_nil {A} (Step : value -> st -> A -> st -> Prop) s rs s' : InTurn Step [] s rs s' <-> rs = [] /\ s' = s.
Proof. split; [intros H; inversion H; auto|]. intros [-> ->]. constructor. Qed.
Lemma in_turn_cons {A} (Step : value -> st -> A -> st -> Prop) v vs s rs s' :
  InTurn Step (v :: vs) s rs s' <-> exists r s1 rs', rs = r :: rs' /\ Step v s r s1 /\ InTurn Step vs s1 rs' s'.
Proof.
  split.
  - intros H. inversion H as [|? ? ? r s1 rs' ? H1 H2]; subst. exists r, s1, rs'. auto.
  - intros (r & s1 & rs' & -> & H1 & H2). econstructor; eassumption.
Qed.
Lemma fails_nil {A} (Step : value -> st -> A -> st -> Prop) Fail s e s' : ~ FailsAt Step Fail [] s e s'.
Proof. intros (before & v & after & rs & s1 & H & _). destruct before; discriminate. Qed.
Lemma fails_cons {A} (Step : value -> st -> A -> st -> Prop) Fail v vs s e s' :
  FailsAt Step Fail (v :: vs) s e s' <->
  Fail v s e s' \/ exists r s1, Step v s r s1 /\ FailsAt Step Fail vs s1 e s'.
Proof.
  split.
  - intros (before & w & after & rs & s1 & E & Hb & Hf). destruct before as [|x before]; cbn in E; injection E as -> ->.
    + apply in_turn_nil in Hb. destruct Hb as [-> ->]. left. exact Hf.
    + apply in_turn_cons in Hb. destruct Hb as (r & s2 & rs' & -> & H1 & H2). right. exists r, s2. split; [exact H1|].
      exists before, w, after, rs', s1. auto.
  - intros [H | (r & s1 & H1 & (before & w & after & rs & s2 & -> & Hb & Hf))].
    + exists [], v, vs, [], s. split; [reflexivity|]. split; [constructor|exact H].
    + exists (v :: before), w, after, (r :: rs), s2. split; [reflexivity|]. split; [econstructor; eassumption|exact Hf].
Qed.

Section Callbacks.
  Variable call : func -> nmap value -> ty -> str -> EM value.

  Lemma callback_any_ok f v src s r s' : callback_any call f v src s = Ok r s' <-> Returns call TAny f src v s r s'.
  Proof.
    unfold callback_any, eval_callback, Returns, bind. destruct (bind_synthetic_call f false v s) as [bs s1|e s1| |] eqn:Eb.
    - split.
      + intros H. exists bs, s1. split; [reflexivity|]. destruct (call f bs TAny src s1); try discriminate. exact H.
      + intros (bs' & s1' & E & H). injection E as <- <-. rewrite H. reflexivity.
    - split; [discriminate|]. intros (? & ? & E & _). discriminate.
    - split; [discriminate|]. intros (? & ? & E & _). discriminate.
    - split; [discriminate|]. intros (? & ? & E & _). discriminate.
  Qed.
  Lemma callback_any_err f v src s e s' : callback_any call f v src s = Err e s' <-> Fails call TAny f src v s e s'.
  Proof.
    unfold callback_any, eval_callback, Fails, bind. destruct (bind_synthetic_call f false v s) as [bs s1|e1 s1| |] eqn:Eb.
    - split.
      + intros H. right. exists bs, s1. split; [reflexivity|]. destruct (call f bs TAny src s1); try discriminate. exact H.
      + intros [E | (bs' & s1' & E & H)]; [discriminate|]. injection E as <- <-. rewrite H. reflexivity.
    - split; [intros H; left; injection H as -> ->; reflexivity|]. intros [E | (? & ? & E & _)]; [injection E as -> ->; reflexivity|discriminate].
    - split; [discriminate|]. intros [E | (? & ? & E & _)]; discriminate.
    - split; [discriminate|]. intros [E | (? & ? & E & _)]; discriminate.
  Qed.
  Lemma callback_bool_ok f v src s b s' : callback_bool call f v src s = Ok b s' <-> Answers call f src v s b s'.
  Proof.
    unfold callback_bool, eval_callback, Answers, Returns, bind. destruct (bind_synthetic_call f false v s) as [bs s1|e s1| |] eqn:Eb.
    - split.
      + intros H. exists bs, s1. split; [reflexivity|]. destruct (call f bs TBool src s1) as [r s2| | |]; try discriminate.
        destruct r; try discriminate. injection H as -> ->. reflexivity.
      + intros (bs' & s1' & E & H). injection E as <- <-. rewrite H. reflexivity.
    - split; [discriminate|]. intros (? & ? & E & _). discriminate.
    - split; [discriminate|]. intros (? & ? & E & _). discriminate.
    - split; [discriminate|]. intros (? & ? & E & _). discriminate.
  Qed.
  Lemma callback_bool_err f v src s e s' : callback_bool call f v src s = Err e s' <-> Fails call TBool f src v s e s'.
  Proof.
    unfold callback_bool, eval_callback, Fails, bind. destruct (bind_synthetic_call f false v s) as [bs s1|e1 s1| |] eqn:Eb.
    - split.
      + intros H. right. exists bs, s1. split; [reflexivity|]. destruct (call f bs TBool src s1) as [r s2| | |]; try discriminate; [|injection H as -> ->; reflexivity].
        destruct r; discriminate.
      + intros [E | (bs' & s1' & E & H)]; [discriminate|]. injection E as <- <-. rewrite H. reflexivity.
    - split; [intros H; left; injection H as -> ->; reflexivity|]. intros [E | (? & ? & E & _)]; [injection E as -> ->; reflexivity|discriminate].
    - split; [discriminate|]. intros [E | (? & ? & E & _)]; discriminate.
    - split; [discriminate|]. intros [E | (? & ? & E & _)]; discriminate.
  Qed.

  (** *** Map *)
  Lemma map_ok f src vs : forall s out s',
    map_list call f vs src s = Ok out s' <-> InTurn (Returns call TAny f src) vs s out s'.
  Proof.
    induction vs as [|v vs IH]; intros s out s'.
    - rewrite in_turn_nil. cbn. split; [intros E; injection E as <- <-; auto|]. intros [-> ->]. reflexivity.
    - rewrite in_turn_cons. cbn [map_list]. unfold bind at 1.
      destruct (callback_any call f v src s) as [r s1|e s1| |] eqn:E1.
      + unfold bind. split.
        * destruct (map_list call f vs src s1) as [rs s2| | |] eqn:E2; try discriminate.
          intros E. injection E as <- <-. exists r, s1, rs. split; [reflexivity|]. split; [apply callback_any_ok, E1|apply IH, E2].
        * intros (r' & s1' & rs & -> & H1 & H2). apply callback_any_ok in H1. rewrite E1 in H1. injection H1 as <- <-.
          apply IH in H2. rewrite H2. reflexivity.
      + split; [discriminate|]. intros (? & ? & ? & _ & H & _). apply callback_any_ok in H. congruence.
      + split; [discriminate|]. intros (? & ? & ? & _ & H & _). apply callback_any_ok in H. congruence.
      + split; [discriminate|]. intros (? & ? & ? & _ & H & _). apply callback_any_ok in H. congruence.
  Qed.
  Lemma map_err f src vs : forall s e s',
    map_list call f vs src s = Err e s' <-> FailsAt (Returns call TAny f src) (Fails call TAny f src) vs s e s'.
  Proof.
    induction vs as [|v vs IH]; intros s e s'.
    - split; [discriminate|]. intros H. destruct (fails_nil _ _ _ _ _ H).
    - rewrite fails_cons. cbn [map_list]. unfold bind at 1.
      destruct (callback_any call f v src s) as [r s1|e1 s1| |] eqn:E1.
      + unfold bind. split.
        * destruct (map_list call f vs src s1) as [rs s2|e2 s2| |] eqn:E2; try discriminate.
          intros E. injection E as <- <-. right. exists r, s1. split; [apply callback_any_ok, E1|apply IH, E2].
        * intros [H | (r' & s1' & H1 & H2)]; [apply callback_any_err in H; congruence|].
          apply callback_any_ok in H1. rewrite E1 in H1. injection H1 as <- <-. apply IH in H2. rewrite H2. reflexivity.
      + split; [intros E; left; apply callback_any_err; congruence|].
        intros [H | (r' & s1' & H1 & H2)]; [apply callback_any_err in H; congruence|apply callback_any_ok in H1; congruence].
      + split; [discriminate|].
        intros [H | (r' & s1' & H1 & H2)]; [apply callback_any_err in H; congruence|apply callback_any_ok in H1; congruence].
      + split; [discriminate|].
        intros [H | (r' & s1' & H1 & H2)]; [apply callback_any_err in H; congruence|apply callback_any_ok in H1; congruence].
  Qed.

  (** *** Filter *)
  Lemma filter_ok f src vs : forall s out s',
    filter_list call f vs src s = Ok out s' <-> exists flags, InTurn (Answers call f src) vs s flags s' /\ out = selected vs flags.
  Proof.
    induction vs as [|v vs IH]; intros s out s'.
    - cbn. split.
      + intros E. injection E as <- <-. exists []. split; [constructor|reflexivity].
      + intros (fl & H & ->). apply in_turn_nil in H. destruct H as [-> ->]. reflexivity.
    - cbn [filter_list]. unfold bind at 1. destruct (callback_bool call f v src s) as [b s1|e s1| |] eqn:E1.
      + unfold bind. split.
        * destruct (filter_list call f vs src s1) as [rs s2| | |] eqn:E2; try discriminate.
          intros E. injection E as <- <-. apply IH in E2. destruct E2 as (fl & H2 & ->). exists (b :: fl).
          split; [|destruct b; reflexivity]. econstructor; [apply callback_bool_ok, E1|exact H2].
        * intros (fl & H & ->). apply in_turn_cons in H. destruct H as (b' & s1' & fl' & -> & H1 & H2).
          apply callback_bool_ok in H1. rewrite E1 in H1. injection H1 as <- <-.
          rewrite (proj2 (IH s1 (selected vs fl') s')); [destruct b; reflexivity|]. exists fl'. auto.
      + split; [discriminate|]. intros (fl & H & _). apply in_turn_cons in H. destruct H as (? & ? & ? & _ & H & _).
        apply callback_bool_ok in H. congruence.
      + split; [discriminate|]. intros (fl & H & _). apply in_turn_cons in H. destruct H as (? & ? & ? & _ & H & _).
        apply callback_bool_ok in H. congruence.
      + split; [discriminate|]. intros (fl & H & _). apply in_turn_cons in H. destruct H as (? & ? & ? & _ & H & _).
        apply callback_bool_ok in H. congruence.
  Qed.
  Lemma filter_err f src vs : forall s e s',
    filter_list call f vs src s = Err e s' <-> FailsAt (Answers call f src) (Fails call TBool f src) vs s e s'.
  Proof.
    induction vs as [|v vs IH]; intros s e s'.
    - split; [discriminate|]. intros H. destruct (fails_nil _ _ _ _ _ H).
    - rewrite fails_cons. cbn [filter_list]. unfold bind at 1.
      destruct (callback_bool call f v src s) as [r s1|e1 s1| |] eqn:E1.
      + unfold bind. split.
        * destruct (filter_list call f vs src s1) as [rs s2|e2 s2| |] eqn:E2; try discriminate.
          intros E. injection E as <- <-. right. exists r, s1. split; [apply callback_bool_ok, E1|apply IH, E2].
        * intros [H | (r' & s1' & H1 & H2)]; [apply callback_bool_err in H; congruence|].
          apply callback_bool_ok in H1. rewrite E1 in H1. injection H1 as <- <-. apply IH in H2. rewrite H2. reflexivity.
      + split; [intros E; left; apply callback_bool_err; congruence|].
        intros [H | (r' & s1' & H1 & H2)]; [apply callback_bool_err in H; congruence|apply callback_bool_ok in H1; congruence].
      + split; [discriminate|].
        intros [H | (r' & s1' & H1 & H2)]; [apply callback_bool_err in H; congruence|apply callback_bool_ok in H1; congruence].
      + split; [discriminate|].
        intros [H | (r' & s1' & H1 & H2)]; [apply callback_bool_err in H; congruence|apply callback_bool_ok in H1; congruence].
  Qed.

  (** *** Search *)
  Lemma first_cons Step b v vs s w s' :
    FirstAnswer Step b (v :: vs) s w s' <->
    (w = v /\ Step v s b s') \/ exists s1, Step v s (negb b) s1 /\ FirstAnswer Step b vs s1 w s'.
  Proof.
    split.
    - intros (before & after & s1 & E & Hb & Hf). unfold AllAnswer in Hb. destruct before as [|x before]; cbn in E; injection E as -> ->.
      + apply in_turn_nil in Hb. destruct Hb as [_ ->]. left. auto.
      + cbn in Hb. apply in_turn_cons in Hb. destruct Hb as (r & s2 & rs' & Er & H1 & H2). injection Er as <- <-.
        right. exists s2. split; [exact H1|]. exists before, after, s1. auto.
    - intros [[-> H] | (s1 & H1 & (before & after & s2 & -> & Hb & Hf))].
      + exists [], vs, s. split; [reflexivity|]. split; [constructor|exact H].
      + exists (v :: before), after, s2. split; [reflexivity|]. split; [econstructor; eassumption|exact Hf].
  Qed.
  Lemma first_nil Step b s w s' : ~ FirstAnswer Step b [] s w s'.
  Proof. intros (before & after & s1 & E & _). destruct before; discriminate. Qed.
  (** answers are determined, so a search cannot both find and not find *)
  Lemma find_some want f src vs : forall s v s',
    find_first call want f vs src s = Ok (Some v) s' <-> FirstAnswer (Answers call f src) want vs s v s'.
  Proof.
    induction vs as [|x vs IH]; intros s v s'.
    - split; [discriminate|]. intros H. destruct (first_nil _ _ _ _ _ H).
    - rewrite first_cons. cbn [find_first]. unfold bind at 1.
      destruct (callback_bool call f x src s) as [b s1|e s1| |] eqn:E1.
      + destruct (Bool.eqb b want) eqn:Eb.
        * apply Bool.eqb_prop in Eb. subst b. split.
          -- intros E. injection E as -> ->. left. split; [reflexivity|]. apply callback_bool_ok, E1.
          -- intros [[-> H] | (s2 & H & _)]; apply callback_bool_ok in H; rewrite E1 in H; injection H.
             ++ intros ->. reflexivity.
             ++ intros _ H3. destruct want; discriminate.
        * apply Bool.eqb_false_iff in Eb. assert (b = negb want) as -> by (destruct b, want; cbn; congruence). rewrite IH. split.
          -- intros H. right. exists s1. split; [apply callback_bool_ok, E1|exact H].
          -- intros [[-> H] | (s2 & H & H2)]; apply callback_bool_ok in H; rewrite E1 in H; injection H.
             ++ intros _ H3. destruct want; discriminate.
             ++ intros ->. exact H2.
      + split; [discriminate|]. intros [[-> H] | (s2 & H & _)]; apply callback_bool_ok in H; congruence.
      + split; [discriminate|]. intros [[-> H] | (s2 & H & _)]; apply callback_bool_ok in H; congruence.
      + split; [discriminate|]. intros [[-> H] | (s2 & H & _)]; apply callback_bool_ok in H; congruence.
  Qed.
  Lemma find_none want f src vs : forall s s',
    find_first call want f vs src s = Ok None s' <-> AllAnswer (Answers call f src) (negb want) vs s s'.
  Proof.
    unfold AllAnswer. induction vs as [|x vs IH]; intros s s'.
    - cbn [length repeat]. rewrite in_turn_nil. cbn. split; [intros E; injection E as <-; auto|intros [_ ->]; reflexivity].
    - cbn [length repeat]. rewrite in_turn_cons. cbn [find_first]. unfold bind at 1.
      destruct (callback_bool call f x src s) as [b s1|e s1| |] eqn:E1.
      + destruct (Bool.eqb b want) eqn:Eb.
        * apply Bool.eqb_prop in Eb. subst b. split; [discriminate|].
          intros (r & s2 & rs & E & H & _). injection E as <- <-. apply callback_bool_ok in H. rewrite E1 in H. injection H.
          intros _ H2. destruct want; discriminate.
        * apply Bool.eqb_false_iff in Eb. assert (b = negb want) as -> by (destruct b, want; cbn; congruence). rewrite IH. split.
          -- intros H. exists (negb want), s1, (repeat (negb want) (length vs)). split; [reflexivity|].
             split; [apply callback_bool_ok, E1|exact H].
          -- intros (r & s2 & rs & E & H & H2). injection E as <- <-. apply callback_bool_ok in H. rewrite E1 in H.
             injection H as ->. exact H2.
      + split; [discriminate|]. intros (r & s2 & rs & E & H & _). apply callback_bool_ok in H. congruence.
      + split; [discriminate|]. intros (r & s2 & rs & E & H & _). apply callback_bool_ok in H. congruence.
      + split; [discriminate|]. intros (r & s2 & rs & E & H & _). apply callback_bool_ok in H. congruence.
  Qed.
  (** The search fails at [v]: the answers for the ones before were all negative. *)
  Lemma find_err want f src vs : forall s e s',
    find_first call want f vs src s = Err e s' <->
    exists before v after s1, vs = before ++ v :: after /\ AllAnswer (Answers call f src) (negb want) before s s1 /\
      Fails call TBool f src v s1 e s'.
  Proof.
    unfold AllAnswer. induction vs as [|x vs IH]; intros s e s'.
    - split; [discriminate|]. intros (before & v & after & s1 & E & _). destruct before; discriminate.
    - cbn [find_first]. unfold bind at 1. split.
      + destruct (callback_bool call f x src s) as [b s1|e1 s1| |] eqn:E1; try discriminate.
        * destruct (Bool.eqb b want) eqn:Eb; [discriminate|]. intros H. apply IH in H.
          destruct H as (before & v & after & s2 & -> & H1 & H2).
          apply Bool.eqb_false_iff in Eb. assert (b = negb want) as -> by (destruct b, want; cbn; congruence).
          exists (x :: before), v, after, s2. split; [reflexivity|]. split; [|exact H2]. cbn [length repeat].
          econstructor; [apply callback_bool_ok, E1|exact H1].
        * intros E. injection E as <- <-. exists [], x, vs, s. split; [reflexivity|]. split; [constructor|].
          apply callback_bool_err, E1.
      + intros (before & v & after & s1 & E & H1 & H2). destruct before as [|y before]; cbn in E; injection E as -> ->.
        * cbn in H1. apply in_turn_nil in H1. destruct H1 as [_ ->]. apply callback_bool_err in H2. rewrite H2. reflexivity.
        * cbn [length repeat] in H1. apply in_turn_cons in H1. destruct H1 as (r & s2 & rs & E & H1 & H3). injection E as <- <-.
          apply callback_bool_ok in H1. rewrite H1.
          replace (Bool.eqb (negb want) want) with false by (destruct want; reflexivity).
          apply IH. exists before, v, after, s1. auto.
  Qed.

  (** *** Sorting *)
  Lemma key_ok key v src s k s' :
    (match key with None => ret v | Some f => callback_any call f v src end) s = Ok k s' <-> KeyOf call key src v s k s'.
  Proof.
    destruct key as [f|]; cbn; [apply callback_any_ok|]. split; [intros E; injection E as -> ->; auto|intros [-> ->]; reflexivity].
  Qed.
  Lemma key_err key v src s e s' :
    (match key with None => ret v | Some f => callback_any call f v src end) s = Err e s' <-> KeyFails call key src v s e s'.
  Proof. destruct key as [f|]; cbn; [apply callback_any_err|]. split; [discriminate|intros []]. Qed.

  Definition compat (t : ty) (ks : list value) : Prop :=
    match t with
    | TInt => forall k, In k ks -> exists i, k = VInt i
    | TStr => forall k, In k ks -> exists s, k = VStr s
    | _ => Comparable ks
    end.
  Definition next_type (t : ty) (k : value) : ty := if ty_eqb t TUnit then get_type k else t.
  Definition clash (t : ty) (k : value) : bool :=
    (ty_eqb t TInt && ty_eqb (get_type k) TStr) || (ty_eqb t TStr && ty_eqb (get_type k) TInt).
  Lemma compat_nil t : compat t [].
  Proof. destruct t; cbn; try (intros k []); left; intros k []. Qed.
  Lemma compat_cons t k ks : In t [TUnit; TInt; TStr] -> IsKey k ->
    compat t (k :: ks) <-> clash t k = false /\ compat (next_type t k) ks.
  Proof.
    intros [<- | [<- | [<- | []]]] [[i ->] | [x ->]]; unfold clash, next_type; cbn.
    - split.
      + intros [H|H]; split; try reflexivity; intros k' Hk.
        * apply H. right. exact Hk.
        * destruct (H (VInt i) (or_introl eq_refl)) as [y E]. discriminate.
      + intros [_ H]. left. intros k' [<- | Hk]; [eexists; reflexivity|apply H, Hk].
    - split.
      + intros [H|H]; split; try reflexivity; intros k' Hk.
        * destruct (H (VStr x) (or_introl eq_refl)) as [y E]. discriminate.
        * apply H. right. exact Hk.
      + intros [_ H]. right. intros k' [<- | Hk]; [eexists; reflexivity|apply H, Hk].
    - split; [intros H; split; [reflexivity|]; intros k' Hk; apply H; auto|].
      intros [_ H] k' [<- | Hk]; [eexists; reflexivity|apply H, Hk].
    - split; [|intros [E _]; discriminate]. intros H. destruct (H (VStr x) (or_introl eq_refl)) as [y E]. discriminate.
    - split; [|intros [E _]; discriminate]. intros H. destruct (H (VInt i) (or_introl eq_refl)) as [y E]. discriminate.
    - split; [intros H; split; [reflexivity|]; intros k' Hk; apply H; auto|].
      intros [_ H] k' [<- | Hk]; [eexists; reflexivity|apply H, Hk].
  Qed.
  Lemma compat_key t ks k : In t [TUnit; TInt; TStr] -> compat t ks -> In k ks -> IsKey k.
  Proof.
    intros [<- | [<- | [<- | []]]] H Hk; cbn in H.
    - eapply comparable_key; eassumption.
    - left. apply H, Hk.
    - right. apply H, Hk.
  Qed.
  Lemma next_in t k : In t [TUnit; TInt; TStr] -> IsKey k -> In (next_type t k) [TUnit; TInt; TStr].
  Proof. intros [<- | [<- | [<- | []]]] [[i ->] | [x ->]]; cbn; auto. Qed.
  Lemma decorate_cons key v vs t src s :
    decorate call key (v :: vs) t src s =
    match (match key with None => ret v | Some f => callback_any call f v src end) s with
    | Ok k s1 =>
      if match k with VInt _ | VStr _ => true | _ => false end then
        if clash t k then Err (TypeErr SortKeyHeterogeneous) s1
        else match decorate call key vs (next_type t k) src s1 with Ok out s2 => Ok ((k, v) :: out) s2 | Err e s2 => Err e s2 | Crash c => Crash c | NoFuel => NoFuel end
      else Err (TypeErr (SortKeyInvalid (get_type k))) s1
    | Err e s1 => Err e s1
    | Crash c => Crash c
    | NoFuel => NoFuel
    end.
  Proof.
    cbn [decorate]. unfold bind at 1.
    destruct ((match key with None => ret v | Some f => callback_any call f v src end) s) as [k s1| | |]; try reflexivity.
    unfold clash, next_type. destruct k; cbn [get_type]; try reflexivity.
    - destruct ((ty_eqb t TInt && ty_eqb TInt TStr) || (ty_eqb t TStr && ty_eqb TInt TInt)); reflexivity.
    - destruct ((ty_eqb t TInt && ty_eqb TStr TStr) || (ty_eqb t TStr && ty_eqb TStr TInt)); reflexivity.
  Qed.
  Lemma is_key_bool k : (match k with VInt _ | VStr _ => true | _ => false end) = true <-> IsKey k.
  Proof.
    split.
    - destruct k; try discriminate; intros _; [left|right]; eexists; reflexivity.
    - intros [[i ->] | [x ->]]; reflexivity.
  Qed.
  Lemma decorate_ok key src vs : forall t s ds s', In t [TUnit; TInt; TStr] ->
    decorate call key vs t src s = Ok ds s' <->
    exists ks, InTurn (KeyOf call key src) vs s ks s' /\ ds = combine ks vs /\ compat t ks.
  Proof.
    induction vs as [|v vs IH]; intros t s ds s' Ht.
    - cbn. split.
      + intros E. injection E as <- <-. exists []. split; [constructor|]. split; [reflexivity|apply compat_nil].
      + intros (ks & H & -> & _). apply in_turn_nil in H. destruct H as [-> ->]. reflexivity.
    - rewrite decorate_cons. split.
      + destruct ((match key with None => ret v | Some f => callback_any call f v src end) s) as [k s1| | |] eqn:Ek; try discriminate.
        apply key_ok in Ek. destruct (match k with VInt _ | VStr _ => true | _ => false end) eqn:Eb; [|discriminate].
        apply is_key_bool in Eb. destruct (clash t k) eqn:Ec; [discriminate|].
        destruct (decorate call key vs (next_type t k) src s1) as [out s2| | |] eqn:Ed; try discriminate.
        intros E. injection E as <- <-. apply IH in Ed; [|apply next_in; assumption]. destruct Ed as (ks & Hi & -> & Hc).
        exists (k :: ks). split; [econstructor; eassumption|]. split; [reflexivity|]. apply compat_cons; auto.
      + intros (ks & H & -> & Hc). apply in_turn_cons in H. destruct H as (k & s1 & ks' & -> & H1 & H2).
        assert (Hk : IsKey k) by (eapply compat_key; [exact Ht|exact Hc|left; reflexivity]).
        apply compat_cons in Hc; [|assumption..]. destruct Hc as [Hcl Hc].
        apply key_ok in H1. rewrite H1. rewrite (proj2 (is_key_bool k) Hk), Hcl.
        rewrite (proj2 (IH (next_type t k) s1 (combine ks' vs) s' (next_in _ _ Ht Hk))); [reflexivity|]. exists ks'. auto.
  Qed.
  Lemma decorate_err key src vs : forall t s e s', In t [TUnit; TInt; TStr] ->
    decorate call key vs t src s = Err e s' <->
    exists before v after ks s1, vs = before ++ v :: after /\ InTurn (KeyOf call key src) before s ks s1 /\ compat t ks /\
      (KeyFails call key src v s1 e s' \/
       exists k, KeyOf call key src v s1 k s' /\
         ((~ IsKey k /\ e = TypeErr (SortKeyInvalid (get_type k))) \/
          (IsKey k /\ ~ compat t (ks ++ [k]) /\ e = TypeErr SortKeyHeterogeneous))).
  Proof.
    induction vs as [|v vs IH]; intros t s e s' Ht.
    - split; [discriminate|]. intros (before & v & after & ks & s1 & E & _). destruct before; discriminate.
    - rewrite decorate_cons. split.
      + destruct ((match key with None => ret v | Some f => callback_any call f v src end) s) as [k s1|e1 s1| |] eqn:Ek; try discriminate.
        * apply key_ok in Ek. destruct (match k with VInt _ | VStr _ => true | _ => false end) eqn:Eb.
          -- apply is_key_bool in Eb. destruct (clash t k) eqn:Ec.
             ++ intros E. injection E as <- <-. exists [], v, vs, [], s. split; [reflexivity|]. split; [constructor|].
                split; [apply compat_nil|]. right. exists k. split; [exact Ek|]. right. split; [exact Eb|]. split; [|reflexivity].
                cbn [app]. intros Hc. apply compat_cons in Hc; [|assumption..]. destruct Hc. congruence.
             ++ destruct (decorate call key vs (next_type t k) src s1) as [out s2|e2 s2| |] eqn:Ed; try discriminate.
                intros E. injection E as <- <-. apply IH in Ed; [|apply next_in; assumption].
                destruct Ed as (before & w & after & ks & s3 & -> & Hi & Hc & Hf).
                exists (v :: before), w, after, (k :: ks), s3. split; [reflexivity|]. split; [econstructor; eassumption|].
                split; [apply compat_cons; auto|]. destruct Hf as [Hf | (k' & Hk & [Hf | (H1 & H2 & H3)])]; [left; exact Hf|right..].
                ** exists k'. auto.
                ** exists k'. split; [exact Hk|]. right. split; [exact H1|]. split; [|exact H3]. cbn [app].
                   intros Hc'. apply compat_cons in Hc'; [|assumption..]. destruct Hc'. contradiction.
          -- intros E. injection E as <- <-. exists [], v, vs, [], s. split; [reflexivity|]. split; [constructor|].
             split; [apply compat_nil|]. right. exists k. split; [exact Ek|]. left. split; [|reflexivity].
             intros Hk. apply is_key_bool in Hk. congruence.
        * apply key_err in Ek. intros E. injection E as <- <-. exists [], v, vs, [], s. split; [reflexivity|]. split; [constructor|].
          split; [apply compat_nil|]. left. exact Ek.
      + intros (before & w & after & ks & s1 & E & Hi & Hc & Hf). destruct before as [|x before]; cbn in E; injection E as -> ->.
        * apply in_turn_nil in Hi. destruct Hi as [-> ->]. destruct Hf as [Hf | (k & Hk & [[H1 ->] | (H1 & H2 & ->)])].
          -- apply key_err in Hf. rewrite Hf. reflexivity.
          -- apply key_ok in Hk. rewrite Hk.
             destruct (match k with VInt _ | VStr _ => true | _ => false end) eqn:Eb; [|reflexivity].
             apply is_key_bool in Eb. contradiction.
          -- apply key_ok in Hk. rewrite Hk. rewrite (proj2 (is_key_bool k) H1). destruct (clash t k) eqn:Ec; [reflexivity|].
             destruct H2. cbn [app]. apply compat_cons; [assumption..|]. split; [exact Ec|apply compat_nil].
        * apply in_turn_cons in Hi. destruct Hi as (k & s2 & ks' & -> & H1 & H2).
          assert (Hk : IsKey k) by (eapply compat_key; [exact Ht|exact Hc|left; reflexivity]).
          apply compat_cons in Hc; [|assumption..]. destruct Hc as [Hcl Hc].
          apply key_ok in H1. rewrite H1. rewrite (proj2 (is_key_bool k) Hk), Hcl.
          rewrite (proj2 (IH (next_type t k) s2 e s' (next_in _ _ Ht Hk))); [reflexivity|].
          exists before, w, after, ks', s1. split; [reflexivity|]. split; [exact H2|]. split; [exact Hc|].
          destruct Hf as [Hf | (k' & Hk' & [Hf | (H3 & H4 & H5)])]; [left; exact Hf|right..].
          -- exists k'. auto.
          -- exists k'. split; [exact Hk'|]. right. split; [exact H3|]. split; [|exact H5].
             intros Hc'. apply H4. cbn [app]. apply compat_cons; auto.
  Qed.

  Lemma native_sorted_eq key reversed vs src s :
    native_sorted call key reversed vs src s =
    match decorate call key vs TUnit src s with
    | Ok ds s' => Ok (List.map snd (sort_pairs reversed ds)) s'
    | Err e s' => Err e s'
    | Crash c => Crash c
    | NoFuel => NoFuel
    end.
  Proof.
    unfold native_sorted. destruct vs as [|v vs]; [destruct reversed; reflexivity|].
    unfold bind. destruct (decorate call key (v :: vs) TUnit src s) as [ds s'| | |]; try reflexivity.
    unfold sort_pairs. destruct reversed; [|reflexivity]. unfold ret. rewrite map_rev. reflexivity.
  Qed.
  Lemma in_turn_length {A} (Step : value -> st -> A -> st -> Prop) vs s rs s' : InTurn Step vs s rs s' -> length rs = length vs.
  Proof. induction 1; cbn; congruence. Qed.
  Lemma map_fst_combine {A B} (l : list A) : forall l' : list B, length l = length l' -> List.map fst (combine l l') = l.
  Proof. induction l as [|x l IH]; intros [|y l'] H; cbn in *; try discriminate; [reflexivity|]. f_equal. apply IH. lia. Qed.
  Lemma sorted_ok key reversed vs src s out s' :
    native_sorted call key reversed vs src s = Ok out s' <->
    exists ks sorted, InTurn (KeyOf call key src) vs s ks s' /\ Comparable ks /\
      StablySorted reversed (combine ks vs) sorted /\ out = List.map snd sorted.
  Proof.
    rewrite native_sorted_eq. split.
    - destruct (decorate call key vs TUnit src s) as [ds s1| | |] eqn:Ed; try discriminate. intros E. injection E as <- <-.
      apply decorate_ok in Ed; [|left; reflexivity]. destruct Ed as (ks & Hi & -> & Hc). exists ks, (sort_pairs reversed (combine ks vs)).
      split; [exact Hi|]. split; [exact Hc|]. split; [|reflexivity]. apply sort_pairs_spec.
      rewrite map_fst_combine by (eapply in_turn_length; exact Hi). exact Hc.
    - intros (ks & sorted & Hi & Hc & Hs & ->).
      assert (Ef : List.map fst (combine ks vs) = ks) by (apply map_fst_combine; eapply in_turn_length; exact Hi).
      rewrite (proj2 (decorate_ok key src vs TUnit s (combine ks vs) s' (or_introl eq_refl))) by (exists ks; auto).
      f_equal. f_equal. eapply stably_sorted_unique; [|apply sort_pairs_spec; rewrite Ef; exact Hc|exact Hs].
      apply comparable_isKey. rewrite Ef. exact Hc.
  Qed.
  Lemma sorted_err key reversed vs src s e s' :
    native_sorted call key reversed vs src s = Err e s' <->
    exists before v after ks s1, vs = before ++ v :: after /\ InTurn (KeyOf call key src) before s ks s1 /\ Comparable ks /\
      (KeyFails call key src v s1 e s' \/
       exists k, KeyOf call key src v s1 k s' /\
         ((~ IsKey k /\ e = TypeErr (SortKeyInvalid (get_type k))) \/
          (IsKey k /\ ~ Comparable (ks ++ [k]) /\ e = TypeErr SortKeyHeterogeneous))).
  Proof.
    rewrite native_sorted_eq. rewrite <- (decorate_err key src vs TUnit s e s' (or_introl eq_refl)).
    destruct (decorate call key vs TUnit src s); split; try discriminate; intros E; injection E as -> ->; reflexivity.
  Qed.
End Callbacks.
