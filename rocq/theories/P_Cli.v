(** Proofs for C42. *)
From Coq Require Import Lia List.
From Verif Require Import Base BaseFacts M_Text M_Names M_Html M_Render M_Types M_Diag M_Ast M_Value M_SourceFile M_Path M_State M_Native M_Eval M_Std M_Lib M_Cli.
From Verif Require Import S_Util S_Diag S_Scope S_Lib S_Alone S_Cli S_Example S_CliExample P_Path P_CliPath P_Diag P_Built P_State P_Mono P_Std P_Lib.
Import ListNotations.
Local Open Scope list_scope.
Global Opaque compile load_uncached evals_n render std_papyri context_new.

(** * Searching *)
Lemma papyri_join a rel : PapyriFile rel -> PapyriFile (join a rel).
Proof.
  intros (n & stem & L & P). exists n, stem. split; [|exact P]. destruct (is_absolute rel) eqn:A; [unfold join; now rewrite A|].
  destruct a as [|c a]; [unfold join; now rewrite A|]. destruct (last_parts _ _ L) as (l & E).
  destruct (join_shape (c :: a) rel A) as [_ J]; [discriminate|]. apply (parts_last _ (parts (c :: a) ++ l)). now rewrite J, E, app_assoc.
Qed.
Lemma found_papyri H arg p : Found H arg p -> PapyriFile p.
Proof. intros [? ? ? ? ? ?|? ? ? ? ? ? ? ? ? ? ?|? ? ?]; auto. now apply papyri_join. Qed.

Inductive Distinct : list str -> Prop :=
| distinct_nil : Distinct []
| distinct_cons p l : Forall (fun q => ~ SamePath p q) l -> Distinct l -> Distinct (p :: l).
Lemma same_path_sym p q : SamePath p q -> SamePath q p.
Proof. unfold SamePath. congruence. Qed.
Lemma distinct_snoc l p : Distinct l -> Forall (fun q => ~ SamePath p q) l -> Distinct (l ++ [p]).
Proof.
  induction 1 as [|q l F D IH]; intro G; [constructor; constructor|]. inversion G; subst. cbn. constructor; [|auto].
  apply Forall_app. split; [exact F|]. constructor; [|constructor]. intro S. now apply same_path_sym in S.
Qed.
(** [l'] is [l] with some of [P] added. *)
Record Adds (P : str -> Prop) (l l' : list str) : Prop := {
  adds_old : incl l l'; adds_new : forall q, In q l' -> In q l \/ P q; adds_distinct : Distinct l -> Distinct l'
}.
Lemma adds_refl P l : Adds P l l.
Proof. constructor; auto. intro. auto. Qed.
Lemma adds_trans P l1 l2 l3 : Adds P l1 l2 -> Adds P l2 l3 -> Adds P l1 l3.
Proof.
  intros [a1 b1 c1] [a2 b2 c2]. constructor; [intros x I; auto| |auto]. intros q I. apply b2 in I as [I|I]; auto.
Qed.
Definition Covers (l : list str) (p : str) : Prop := exists q, In q l /\ SamePath p q.
Lemma covers_adds P l l' p : Adds P l l' -> Covers l p -> Covers l' p.
Proof. intros [a _ _] (q & I & S). exists q. auto. Qed.
Lemma set_insert_spec (P : str -> Prop) l p : P p -> Adds P l (set_insert l p) /\ Covers (set_insert l p) p.
Proof.
  intro HP. unfold set_insert. destruct (existsb (path_eqb p) l) eqn:E.
  - split; [apply adds_refl|]. apply existsb_exists in E as (q & I & E). exists q. split; [exact I|]. now apply path_eqb_spec.
  - split.
    + constructor; [intros x I; apply in_or_app; now left| |].
      * intros q I. apply in_app_or in I as [I|[<-|[]]]; auto.
      * intro D. apply distinct_snoc; [exact D|]. apply Forall_forall. intros q I S. apply path_eqb_spec in S.
        assert (existsb (path_eqb p) l = true) by (apply existsb_exists; now exists q). congruence.
    + exists p. split; [apply in_or_app; right; now left|reflexivity].
Qed.
Lemma set_inserts_spec (P : str -> Prop) new : forall l, Forall P new -> Adds P l (fold_left set_insert new l) /\ Forall (Covers (fold_left set_insert new l)) new.
Proof.
  induction new as [|p new IH]; intros l F; [split; [apply adds_refl|constructor]|]. inversion F; subst. cbn.
  destruct (set_insert_spec P l p H1) as [A C]. destruct (IH (set_insert l p) H2) as [A' C']. split; [eapply adds_trans; eassumption|].
  constructor; [eapply covers_adds; eassumption|exact C'].
Qed.

Section Run.
  Variable H : host.
  Variable O : options.
  Variable fuel : nat.

  Lemma each_emit {A} (f : A -> event) l : forall s evs, each (fun x => emit (f x)) l s evs = Go tt s (evs ++ List.map f l).
  Proof.
    induction l as [|x l IH]; intros s evs; cbn; [unfold cret; now rewrite app_nil_r|]. unfold cbind, emit. rewrite IH, <- app_assoc. reflexivity.
  Qed.
  Lemma in_insert p q l : In p (path_insert q l) <-> p = q \/ In p l.
  Proof. induction l as [|x l IH]; cbn; [intuition|]. destruct (path_leb q x); cbn; [intuition|]. rewrite IH. intuition. Qed.
  Lemma in_sort p l : In p (path_sort l) <-> In p l.
  Proof. induction l as [|q l IH]; cbn; [tauto|]. rewrite in_insert, IH. intuition. Qed.
  Lemma insert_increasing p l : Increasing l -> Forall (fun q => ~ SamePath p q) l -> Increasing (path_insert p l).
  Proof.
    intro I. induction I as [|q l F I IH]; intro D; cbn; [constructor; constructor|]. inversion D; subst.
    destruct (path_leb p q) eqn:E.
    - apply comps_leb_spec in E as [E|E]; [now destruct (H2 E)|]. constructor; [|now constructor].
      constructor; [exact E|]. eapply Forall_impl; [|exact F]. intros r R. eapply parts_before_trans; eassumption.
    - constructor; [|auto]. apply Forall_forall. intros r R.
      apply in_insert in R as R'.
      destruct R' as [-> |R']; [|rewrite Forall_forall in F; now apply F].
      destruct (comps_leb_total (components p) (components q)) as [L|L]; [unfold path_leb in E; congruence|].
      apply comps_leb_spec in L as [L|L]; [|exact L]. now destruct (H2 (eq_sym L)).
  Qed.
  Lemma sort_increasing l : Distinct l -> Increasing (path_sort l).
  Proof.
    induction 1 as [|p l F D IH]; [constructor|]. cbn. apply insert_increasing; [exact IH|]. rewrite Forall_forall in *. intros q I. apply F. now apply in_sort.
  Qed.

  Lemma find_sources_spec arg base : ~ IsPattern arg -> h_is_dir H arg = true -> h_canonicalize H arg = Some base ->
    exists errs l, find_sources (h_canonicalize H) (h_walk H arg) arg = (errs, Some l) /\
      (forall q, In q l <-> exists e p cs, In (inr e) (h_walk H arg) /\ h_canonicalize H e = Some p /\ make_relative base p = Some cs /\ q = join_names cs /\ PapyriFile q).
  Proof.
    intros _ _ C. unfold find_sources. rewrite C. eexists _, _. split; [reflexivity|]. intro q. rewrite in_sort, filter_In, is_papyri_path_spec, in_flat_map. split.
    - intros [(v & I & E) P]. apply in_map_iff in I as (e & V & I). destruct e as [e|e]; [subst v; easy|].
      destruct (h_canonicalize H e) as [p|] eqn:Ce; [|subst v; easy]. destruct (make_relative base p) as [cs|] eqn:M; subst v; [|easy].
      destruct E as [<-|[]]. exists e, p, cs. auto.
    - intros (e & p & cs & I & Ce & M & -> & P). split; [|exact P]. exists (inr (Some (join_names cs))). split; [|now left].
      apply in_map_iff. exists (inr e). rewrite Ce, M. auto.
  Qed.

  Definition Args (arg : str) (r : reason) : Prop := r = BadPattern arg \/ r = PatternError arg.
  Lemma add_path_spec paths arg s evs :
    match add_path H paths arg s evs with
    | Go l s' evs' => s' = s /\ (exists new, evs' = evs ++ new /\ Forall Complaint new) /\ Adds (Found H arg) paths l /\
                      (forall p, Found H arg p -> Covers l p)
    | Stop r evs' => evs' = evs /\ Args arg r
    | _ => False
    end.
  Proof.
    unfold add_path. destruct (looks_like_glob arg) eqn:G.
    - apply is_pattern_spec in G. destruct (h_glob H arg) as [entries|] eqn:E; [|split; [reflexivity|now left]].
      assert (GO : forall es paths, (forall p, In (Some p) es -> PapyriFile p -> Found H arg p) ->
        match add_entries arg es paths s evs with
        | Go l s' evs' => s' = s /\ evs' = evs /\ Adds (Found H arg) paths l /\ (forall p, In (Some p) es -> PapyriFile p -> Covers l p)
        | Stop r evs' => evs' = evs /\ Args arg r
        | _ => False
        end).
      { induction es as [|[q|] es IH]; intros paths' F; cbn [add_entries].
        - split; [reflexivity|]. split; [reflexivity|]. split; [apply adds_refl|easy].
        - specialize (IH (if is_papyri_path q then set_insert paths' q else paths') (fun p I => F p (or_intror I))).
          destruct (add_entries arg es _ s evs); try exact IH.
          destruct IH as (-> & -> & A & C). split; [reflexivity|]. split; [reflexivity|].
          destruct (is_papyri_path q) eqn:P.
          + apply is_papyri_path_spec in P. destruct (set_insert_spec (Found H arg) paths' q) as [A' C']; [apply F; [now left|exact P]|].
            split; [eapply adds_trans; eassumption|]. intros p [[= ->]|I] PF; [eapply covers_adds; eassumption|auto].
          + split; [exact A|]. intros p [[= ->]|I] PF; [apply is_papyri_path_spec in PF; congruence|auto].
        - split; [reflexivity|now right]. }
      specialize (GO entries paths (fun p I P => found_glob H arg entries p G E I P)).
      destruct (add_entries arg entries paths s evs); try exact GO.
      destruct GO as (-> & -> & A & C). split; [reflexivity|]. split; [exists []; rewrite app_nil_r; now split|].
      split; [exact A|]. intros p F. inversion F; subst; try easy. match goal with X : h_glob H arg = Some _, Y : In (Some p) _ |- _ => rewrite E in X; injection X as <- end. auto.
    - assert (NG : ~ IsPattern arg) by (rewrite <- is_pattern_spec; congruence). destruct (h_is_dir H arg) eqn:D.
      + cbv zeta. unfold cbind at 1. rewrite each_emit. unfold cret. split; [reflexivity|]. split.
        { eexists. split; [reflexivity|]. apply Forall_forall. intros e I. apply in_map_iff in I as (q & <- & _). exact I. }
        destruct (h_canonicalize H arg) as [base|] eqn:C.
        * destruct (find_sources_spec arg base NG D C) as (errs & l & -> & L). cbn [snd].
          destruct (set_inserts_spec (Found H arg) (List.map (join arg) l) paths) as [A Cv].
          { apply Forall_forall. intros q I. apply in_map_iff in I as (q' & <- & I). apply L in I as (e & p & cs & I & Ce & M & -> & P). now apply (found_dir H arg base e p cs). }
          split; [exact A|]. intros p F. inversion F; subst; try easy; [|congruence]. rewrite Forall_forall in Cv. apply Cv. apply in_map. apply L.
          exists e, q, names. match goal with X : h_canonicalize H arg = Some ?b, Y : make_relative ?b _ = _ |- _ => rewrite C in X; injection X as <- end. auto 6.
        * unfold find_sources. rewrite C. cbn [snd]. split; [apply adds_refl|]. intros p F. inversion F; subst; try easy; congruence.
      + destruct (is_papyri_path arg) eqn:P.
        * apply is_papyri_path_spec in P. assert (F : Found H arg arg) by now constructor. destruct (set_insert_spec (Found H arg) paths arg F) as [A C].
          split; [reflexivity|]. split; [exists []; rewrite app_nil_r; now split|]. split; [exact A|]. intros p F'. inversion F'; subst; try easy; congruence.
        * split; [reflexivity|]. split; [eexists; split; [reflexivity|]; constructor; [exact I|constructor]|]. split; [apply adds_refl|].
          intros p F. inversion F; subst; try easy; [congruence|]. match goal with X : PapyriFile _ |- _ => apply is_papyri_path_spec in X end. congruence.
  Qed.
  Lemma adds_weaken (P Q : str -> Prop) l l' : (forall p, P p -> Q p) -> Adds P l l' -> Adds Q l l'.
  Proof. intros W [a b c]. constructor; auto. intros q I. apply b in I as [I|I]; auto. Qed.
  Lemma add_paths_spec args : forall paths s evs,
    match add_paths H args paths s evs with
    | Go l s' evs' => s' = s /\ (exists new, evs' = evs ++ new /\ Forall Complaint new) /\ Adds (fun p => exists arg, In arg args /\ Found H arg p) paths l /\
                      (forall arg p, In arg args -> Found H arg p -> Covers l p)
    | Stop r evs' => (exists new, evs' = evs ++ new /\ Forall Complaint new) /\ (exists arg, In arg args /\ Args arg r)
    | _ => False
    end.
  Proof.
    induction args as [|arg args IH]; intros paths s evs; cbn [add_paths].
    - split; [reflexivity|]. split; [exists []; rewrite app_nil_r; now split|]. split; [apply adds_refl|easy].
    - unfold cbind. pose proof (add_path_spec paths arg s evs) as A. destruct (add_path H paths arg s evs) as [l s1 evs1|r evs1|evs1|]; try easy.
      + destruct A as (-> & (new & -> & N) & A & C). specialize (IH l s (evs ++ new)). destruct (add_paths H args l s (evs ++ new)) as [l' s2 evs2|r evs2|evs2|]; try easy.
        * destruct IH as (-> & (new' & -> & N') & A' & C'). split; [reflexivity|]. split; [exists (new ++ new'); rewrite app_assoc; split; [reflexivity|now apply Forall_app]|].
          split; [eapply adds_trans; (eapply adds_weaken; [|eassumption])|].
          -- intros p F. exists arg. split; [now left|exact F].
          -- intros p (a & I & F). exists a. split; [now right|exact F].
          -- intros a p [<-|I] F; [eapply covers_adds; [exact A'|auto]|eauto].
        * destruct IH as ((new' & -> & N') & (a & I & R)). split; [exists (new ++ new'); rewrite app_assoc; split; [reflexivity|now apply Forall_app]|].
          exists a. split; [now right|exact R].
      + destruct A as (-> & R). split; [exists []; rewrite app_nil_r; now split|]. exists arg. split; [now left|exact R].
  Qed.

  Lemma get_source_paths_spec s evs :
    let args := match o_paths O with [] => [lit "."] | ps => ps end in
    match get_source_paths H args s evs with
    | Go l s' evs' => s' = s /\ (exists new, evs' = evs ++ new /\ Forall Complaint new) /\ Sources H O l
    | Stop r evs' => (exists new, evs' = evs ++ new /\ Forall Complaint new) /\ (exists arg, In arg args /\ Args arg r)
    | _ => False
    end.
  Proof.
    intro args. unfold get_source_paths, cbind. pose proof (add_paths_spec args [] s evs) as A.
    destruct (add_paths H args [] s evs) as [l s1 evs1|r evs1|evs1|]; try exact A. destruct A as (-> & E & A & C).
    split; [reflexivity|]. split; [exact E|]. unfold Sources. fold args. split; [|split].
    - apply sort_increasing. apply A. constructor.
    - intros p I. apply -> in_sort in I. apply (adds_new _ _ _ A) in I as [[]|I]. exact I.
    - intros arg p I F. destruct (C arg p I F) as (q & Q & S). exists q. split; [now apply in_sort|exact S].
  Qed.

  (** * One source *)
  Lemma get_out_path_spec src in_dir s evs : PapyriFile src ->
    match get_out_path O src in_dir s evs with
    | Go out s' evs' => s' = s /\ evs' = evs /\ OutPath (o_text O) (o_out_dir O) in_dir src out
    | Stop r evs' => evs' = evs /\ r = NoOutputPath src /\ Interrupted H O fuel in_dir evs src [] r
    | Ice evs' => evs' = evs
    | Starved => False
    end.
  Proof.
    intros (n & stem & L & PN). pose proof L as FN. apply file_name_spec in FN. pose proof FN as FC. apply file_name_components in FC as (l & EC).
    pose proof PN as PN'. apply papyri_name_spec in PN' as [_ ES].
    assert (EX : extension O = lit "txt" \/ extension O = lit "html") by (unfold extension; destruct (o_text O); auto).
    assert (DS : forall wd, Denotes wd src (walk wd l ++ [n])) by (intro wd; apply Denotes_walk; now rewrite EC, walk_app).
    unfold get_out_path, cbind. destruct (o_out_dir O) as [d|] eqn:OD.
    - destruct (make_relative in_dir src) as [cs|] eqn:M.
      + unfold cret. destruct (set_extension (join d (join_names cs)) (extension O)) as [p|] eqn:SE; [|reflexivity].
        split; [reflexivity|]. split; [reflexivity|]. intros wd A NP D ND NW.
        assert (NE : in_dir <> []) by (destruct A as (? & ->); discriminate).
        destruct (make_relative_names _ _ _ NE M) as (names & -> & V). apply (make_relative_faithful in_dir src names [] wd A NP D) in M.
        apply (denotes_join in_dir wd src _ A D) in M. pose proof (Denotes_fun _ _ _ _ M (DS wd)) as EQ.
        destruct names as [|x names] using rev_ind; [rewrite app_nil_r in M; now destruct (NW M)|]. clear IHnames.
        rewrite app_assoc in EQ. apply app_inj_tail in EQ as [EQ ->]. exists (wd ++ names), n, stem. cbv zeta.
        split; [exact L|]. split; [exact PN|]. split; [rewrite EQ; apply Denotes_walk; now rewrite EC, walk_app|].
        exists names, (walk wd (components d)). split; [reflexivity|]. split; [now apply Denotes_walk|].
        destruct (parts_join_names (names ++ [n]) V) as [JA JP].
        assert (CJ : components (join d (join_names (map Norm (names ++ [n])))) = (components d ++ map Norm names) ++ [Norm n]).
        { rewrite components_join; [|exact JA|congruence]. rewrite JP, map_app, app_assoc. reflexivity. }
        destruct (set_extension_denotes wd _ (extension O) n _ EX CJ) as (q & SE' & DQ). rewrite SE in SE'. injection SE' as <-.
        rewrite walk_app, walk_snoc_names, ES, <- app_assoc in DQ. exact DQ.
      + split; [reflexivity|]. split; [reflexivity|]. apply (int_path H O fuel in_dir evs src d OD).
        intros wd A NP D sub DN. apply (denotes_join in_dir wd src _ A D) in DN.
        apply (make_relative_faithful in_dir src sub [] wd A NP D) in DN. congruence.
    - unfold cret. destruct (set_extension src (extension O)) as [p|] eqn:SE; [|reflexivity].
      split; [reflexivity|]. split; [reflexivity|]. intros wd _ _ _ _ _. exists (walk wd l), n, stem. cbv zeta. split; [exact L|]. split; [exact PN|].
      split; [apply DS|]. destruct (set_extension_denotes wd _ (extension O) n _ EX EC) as (q & SE' & DQ). rewrite SE in SE'. injection SE' as <-.
      rewrite ES in DQ. exact DQ.
  Qed.
  Lemma say_spec line s evs : exists new, say O line s evs = Go tt s (evs ++ new) /\ Forall Line new /\ new = said O line.
  Proof.
    unfold say, said. destruct (o_silent O); [exists []|exists [Said line]]; (split; [|split]); try reflexivity; [now rewrite app_nil_r|constructor|].
    constructor; [exact I|constructor].
  Qed.

  (** Between two sources *)
  Definition Kept (s : st) : Prop :=
    sk_level (st_sink s) = reporting O /\
    match o_out_dir O, st_out s with
    | Some d, Some o => base_path o = d /\ out_v o = []
    | None, None => True
    | _, _ => False
    end.
  Definition InUse (s : st) : Prop :=
    exists new, context_new (cli_X H O []) std_papyri fuel (reporting O) (o_out_dir O) = Ok tt new /\ Used new s.
  Lemma reset_ready s : Kept s -> exists s0, reset s = Ok tt s0 /\ Ready O s0.
  Proof.
    intros [L K]. unfold reset, bind, modify, gets. cbn [st_out set_sink set_uids]. unfold Ready. destruct (o_out_dir O) as [d|], (st_out s) as [o|] eqn:E; try easy.
    - destruct K as [K1 K2]. unfold out_is_empty. cbn [set_uids set_sink st_out]. rewrite ?E, ?K2. eexists. split; [reflexivity|]. cbn. rewrite ?E. unfold sink_clear, sink_new. rewrite L. auto.
    - cbn [set_uids set_sink st_out]. rewrite ?E. eexists. split; [reflexivity|]. cbn. rewrite ?E. unfold sink_clear, sink_new. rewrite L. auto.
  Qed.
  Transparent load_uncached compile.
  Lemma load_is_compile X src s : load_uncached X (evals_n X fuel) src s =
    match x_read X src with Some text => compile X fuel src text s | None => Err (ModuleErr (IOError src)) s end.
  Proof. unfold load_uncached, compile. now destruct (x_read X src). Qed.
  Opaque load_uncached compile.
  Lemma error_at_level e : is_error e -> AtLevel (reporting O) e.
  Proof. unfold reporting. destruct (o_ignore_warnings O); cbn; auto. Qed.
  Lemma has_error_count es d : SinkIs (reporting O) es d -> ((0 <? sk_errors d)%N = true <-> HasError (sk_v d)).
  Proof.
    intros (_ & V & E & _). rewrite N.ltb_lt. assert (Z : sk_errors d = 0%N <-> ~ HasError (sk_v d)).
    { rewrite (count_zero _ _ _ E). unfold HasError. rewrite <- Forall_Exists_neg. clear E. induction V as [|x l l' Hx V IH|x l l' Hx V IH].
      - split; constructor.
      - split; intro F; inversion F; subst; constructor; tauto.
      - split; [intro F; inversion F; tauto|]. intro F. constructor; [intro Z; now apply error_at_level in Z|tauto]. }
    assert (Dec : HasError (sk_v d) \/ ~ HasError (sk_v d)).
    { unfold HasError. clear. induction (sk_v d) as [|e l IH]; [right; intro X; inversion X|]. destruct IH as [IH|IH]; [left; now right|].
      destruct e; cbn; try (left; left; exact I); right; intro X; inversion X; subst; easy. }
    destruct Dec; [|intuition lia]. split; [auto|]. intros _. destruct (N.eq_dec (sk_errors d) 0); [tauto|lia].
  Qed.
  Lemma summary_empty es d : SinkIs (reporting O) es d -> sink_is_empty d = true -> Forall (fun e => ~ Diagnostic e) es /\ sk_errors d = 0%N.
  Proof.
    intros (_ & _ & E & W) Z. unfold sink_is_empty in Z. apply andb_true_iff in Z as [Z1 Z2]. apply N.eqb_eq in Z1, Z2. split; [|exact Z1].
    apply (count_zero _ _ _ E) in Z1. apply (count_zero _ _ _ W) in Z2. rewrite Forall_forall in Z1, Z2 |- *. intros e I [D|D]; [now apply (Z1 e)|now apply (Z2 e)].
  Qed.
  Lemma summary_full src es d quiet : SinkIs (reporting O) es d -> sink_is_empty d = false ->
    Summarised O src es quiet [Summary (src ++ lit " (" ++ sink_summary d ++ lit ")")].
  Proof.
    intros (_ & _ & E & W) Z. unfold sink_summary. destruct (N.ltb_spec 0 (sk_errors d)) as [EP|EP].
    - pose proof (sum_errors O src es quiet _ _ E W ltac:(lia)) as S. rewrite <- !app_assoc in *. exact S.
    - assert (Z0 : sk_errors d = 0%N) by lia. rewrite Z0 in E. destruct (N.ltb_spec 0 (sk_warnings d)) as [WP|WP].
      + pose proof (sum_warnings O src es quiet _ E W ltac:(lia)) as S. rewrite <- !app_assoc in *. exact S.
      + exfalso. assert (Z2 : sk_warnings d = 0%N) by lia. unfold sink_is_empty in Z. rewrite Z0, Z2 in Z. discriminate Z.
  Qed.
  Lemma each_writes files : forall s evs,
    match each (write_out_file H O) files s evs with
    | Go _ s' evs' => s' = s /\ exists new, evs' = evs ++ new /\ Writes H O files new
    | Stop r evs' => exists done_ p doc rest new new', files = done_ ++ (p, doc) :: rest /\ evs' = evs ++ new ++ new' /\ Writes H O done_ new /\
                     (new' = [] /\ r = NoDirectory p \/ new' = [] /\ r = NoFile p \/ new' = [Damaged p] /\ r = WriteFailed p)
    | _ => False
    end.
  Proof.
    induction files as [|[p doc] files IH]; intros s evs; cbn [each].
    - split; [reflexivity|]. exists []. rewrite app_nil_r. split; [reflexivity|constructor].
    - unfold cbind at 1, write_out_file at 1. unfold cbind at 1, ask. cbn [fst snd]. destruct (h_write H evs p) eqn:EW.
      + exists [], p, doc, files, [], []. rewrite app_nil_r. split; [reflexivity|]. split; [reflexivity|]. split; [constructor|auto].
      + exists [], p, doc, files, [], []. rewrite app_nil_r. split; [reflexivity|]. split; [reflexivity|]. split; [constructor|auto].
      + exists [], p, doc, files, [], [Damaged p]. split; [reflexivity|]. split; [reflexivity|]. split; [constructor|auto].
      + unfold cbind, emit. destruct (say_spec (lit "    => " ++ p) s (evs ++ [Damaged p])) as (new & -> & F & ->).
        assert (W : forall fs evs, Writes H O fs evs -> Writes H O ((p, doc) :: fs) (Damaged p :: said O (lit "    => " ++ p) ++ evs)).
        { intros fs evs0 W. apply writes_lost; [eauto|exact W]. }
        specialize (IH s ((evs ++ [Damaged p]) ++ said O (lit "    => " ++ p))). destruct (each (write_out_file H O) files s _) as [a s' evs'|r evs'|evs'|]; try exact IH.
        * destruct IH as (-> & new' & -> & W'). split; [reflexivity|]. eexists. split; [|apply W, W']. now rewrite <- !app_assoc.
        * destruct IH as (done_ & q & doc' & rest & new1 & new2 & -> & -> & W' & R). exists ((p, doc) :: done_), q, doc', rest. eexists _, new2.
          split; [reflexivity|]. split; [|split; [apply W, W'|exact R]]. rewrite <- !app_assoc. cbn. rewrite <- !app_assoc. reflexivity.
      + unfold cbind, emit. destruct (say_spec (lit "    => " ++ p) s (evs ++ [Wrote p (render (negb (o_text O)) doc)])) as (new & -> & F & ->).
        assert (W : forall fs evs, Writes H O fs evs -> Writes H O ((p, doc) :: fs) (Wrote p (render (negb (o_text O)) doc) :: said O (lit "    => " ++ p) ++ evs)).
        { intros fs evs0 W. now apply writes_file. }
        specialize (IH s ((evs ++ [Wrote p (render (negb (o_text O)) doc)]) ++ said O (lit "    => " ++ p))). destruct (each (write_out_file H O) files s _) as [a s' evs'|r evs'|evs'|]; try exact IH.
        * destruct IH as (-> & new' & -> & W'). split; [reflexivity|]. eexists. split; [|apply W, W']. now rewrite <- !app_assoc.
        * destruct IH as (done_ & q & doc' & rest & new1 & new2 & -> & -> & W' & R). exists ((p, doc) :: done_), q, doc', rest. eexists _, new2.
          split; [reflexivity|]. split; [|split; [apply W, W'|exact R]]. rewrite <- !app_assoc. cbn. rewrite <- !app_assoc. reflexivity.
  Qed.

  Definition verdict_of (r : source_result) : verdict :=
    match r with OkWroteFiles k => IsOk k | Failed => IsFailed | _ => IsSkipped end.
  Lemma process_spec src in_dir s evs : PapyriFile src -> Kept s -> InUse s ->
    match process_source_file H O fuel src in_dir s evs with
    | Go r s' evs' => Kept s' /\ InUse s' /\ exists new, evs' = evs ++ new /\ Treated H O fuel in_dir evs src new (verdict_of r)
    | Stop r evs' => exists new, evs' = evs ++ new /\ Interrupted H O fuel in_dir evs src new r
    | Ice evs' => evs' = evs
    | Starved => True
    end.
  Proof.
    intros PF K IU. unfold process_source_file. destruct (is_papyri_library src) eqn:LB.
    - apply is_library_spec in LB. unfold cbind. destruct (say_spec (src ++ lit " (library, skipping)") s evs) as (new & -> & F & ->).
      split; [exact K|]. split; [exact IU|]. eexists. split; [reflexivity|]. now apply treated_library.
    - assert (NL : ~ Library src) by (rewrite <- is_library_spec; congruence).
      unfold cbind at 1. pose proof (get_out_path_spec src in_dir s evs PF) as G. destruct (get_out_path O src in_dir s evs) as [out s1 evs1|r evs1|evs1|]; try easy.
      2: { destruct G as (-> & -> & G). exists []. rewrite app_nil_r. auto. }
      destruct G as (-> & -> & OP). unfold cbind at 1, ask at 1. destruct (o_skip_unchanged O && is_unchanged H evs src out) eqn:U.
      + apply andb_true_iff in U as [U1 U2]. unfold is_unchanged in U2. destruct (h_mtime H evs src) as [a|] eqn:Ta; [|discriminate].
        destruct (h_mtime H evs out) as [b|] eqn:Tb; [|discriminate]. apply N.leb_le in U2.
        unfold cbind. destruct (say_spec (src ++ lit " (unchanged, skipping)") s evs) as (new & -> & F & ->).
        split; [exact K|]. split; [exact IU|]. eexists. split; [reflexivity|]. eapply treated_unchanged; eassumption.
      + clear U. unfold cbind at 1, compiler at 1. destruct (reset_ready s K) as (s0 & Re & R). rewrite Re. unfold cbind at 1, compiler at 1.
        rewrite load_is_compile. destruct (x_read (cli_X H O evs) src) as [text|] eqn:RD.
        2: { exists []. rewrite app_nil_r. split; [reflexivity|]. now apply int_read. }
        destruct (compile (cli_X H O evs) fuel src text s0) as [[h exports] s1|e s1| |] eqn:C; try easy.
        2: { now destruct (compile_no_err _ _ _ _ _ _ _ C). }
        assert (AF : after (compile (cli_X H O evs) fuel src text s0) = Some s1) by now rewrite C.
        destruct (built_reports any_key true _ _ (built_compile (cli_X H O evs) fuel src text true) s0 s1 AF) as [es He].
        pose proof (built_out any_key true _ _ (built_compile (cli_X H O evs) fuel src text true) s0 s1 AF) as Co.
        assert (SI : SinkIs (reporting O) es (st_sink s1)) by (eapply reported_fresh; [apply R|exact He]).
        unfold cbind at 1. set (collected := match o_out_dir O, st_out s1 with
                  | Some d, Some o => List.map (fun f => (join d (join_names (fst f)), snd f)) (out_v o)
                  | _, _ => [] end).
        assert (CP : CompilationOf H O fuel evs src es (sk_v (st_sink s1)) collected h).
        { exists text, s0, exports, s1. destruct IU as (new & N & U). split; [exact RD|]. split; [exact R|]. split; [exists new, s; auto|].
          split; [exact C|]. split; [exact He|]. split; [apply SI|reflexivity]. }
        assert (TK : exists s2, take_out_files s1 evs = Go collected s2 evs /\ Kept s2 /\ InUse s2 /\ st_sink s2 = st_sink s1).
        { assert (IU1 : InUse s1) by (destruct IU as (new & N & U); exists new; split; [exact N|]; eapply used_text; [eapply used_reset; [exact U|exact Re]|exact AF]).
          destruct R as (_ & _ & R). unfold Collected in Co. unfold take_out_files, collected, Kept. destruct SI as (SL & _).
          destruct (o_out_dir O) as [d|], (st_out s0) as [o|], (st_out s1) as [o'|] eqn:E1; try easy.
          - destruct Co as [B _], R as [R _]. eexists. split; [unfold take_iter; cbn [fst snd]; rewrite B, R; f_equal|].
            + apply map_ext. now intros [].
            + split; [|split; [destruct IU1 as (new & N & U); exists new; split; [exact N|]; rewrite <- R, <- B; exact (used_take _ s1 o' U E1)|reflexivity]]. cbn. split; [exact SL|]. split; [congruence|reflexivity].
          - eexists. split; [reflexivity|]. rewrite E1. auto. }
        destruct TK as (s2 & -> & K2 & U2 & S2). cbv zeta. cbn [fst]. set (files := collected ++ _).
        assert (FO : FilesOf O in_dir src collected h files).
        { exists out. split; [exact OP|]. unfold files, html_is_empty. destruct h; try (right; split; [discriminate|reflexivity]). left. split; [reflexivity|apply app_nil_r]. }
        unfold cbind at 1, look. rewrite S2. unfold cbind at 1, emit at 1. unfold cbind at 1.
        assert (SUM : exists new, (if sink_is_empty (st_sink s1) then say O (src ++ lit " (" ++ (match files with [] => lit "no output, skipping" | _ => lit "OK" end) ++ lit ")")
             else emit (Summary (src ++ lit " (" ++ sink_summary (st_sink s1) ++ lit ")"))) s2 (evs ++ [Compiled src (sk_v (st_sink s1))]) =
             Go tt s2 (evs ++ Compiled src (sk_v (st_sink s1)) :: new) /\
             ((sk_errors (st_sink s1) = 0%N -> Summarised O src es (match files with [] => lit "no output, skipping" | _ => lit "OK" end) new) /\
              (sk_errors (st_sink s1) <> 0%N -> Summarised O src es [] new))).
        { destruct (sink_is_empty (st_sink s1)) eqn:SE.
          - destruct (say_spec (src ++ lit " (" ++ (match files with [] => lit "no output, skipping" | _ => lit "OK" end) ++ lit ")") s2 (evs ++ [Compiled src (sk_v (st_sink s1))])) as (new & -> & F & ->).
            eexists. rewrite <- app_assoc. split; [reflexivity|]. apply (summary_empty _ _ SI) in SE as [SE SZ]. split; [intros _; now apply sum_quiet|easy].
          - eexists. unfold emit. rewrite <- app_assoc. split; [reflexivity|]. split; intros _; now apply (summary_full src es _ _ SI). }
        destruct SUM as (lines & -> & FL & FE). pose proof (has_error_count _ _ SI) as HE. destruct (N.ltb_spec 0 (sk_errors (st_sink s1))) as [EP|EP].
        * split; [exact K2|]. split; [exact U2|]. eexists. split; [reflexivity|]. cbn [verdict_of]. eapply treated_failed; try eassumption; [now apply HE|]. apply FE. lia.
        * assert (NE : ~ HasError (sk_v (st_sink s1))) by (intro Z; apply HE in Z; discriminate).
          specialize (FL (proj1 (N.le_0_r _) EP)). destruct files as [|f fs] eqn:EF.
          -- split; [exact K2|]. split; [exact U2|]. eexists. split; [reflexivity|]. cbn [verdict_of]. eapply treated_empty; eassumption.
          -- unfold cbind. pose proof (each_writes (f :: fs) s2 (evs ++ Compiled src (sk_v (st_sink s1)) :: lines)) as W.
             destruct (each (write_out_file H O) (f :: fs) s2 _) as [u s3 evs3|r evs3|evs3|]; try easy.
             ++ destruct W as (-> & new & -> & W). split; [exact K2|]. split; [exact U2|]. eexists. split; [now rewrite <- app_assoc|]. cbn [verdict_of app].
                eapply treated_written; try eassumption. discriminate.
             ++ destruct W as (done_ & p & doc & rest & new & new' & E & -> & W & RS). eexists. split; [now rewrite <- app_assoc|]. cbn [app].
                eapply int_write; eassumption.
  Qed.

  (** * All sources *)
  Definition tally_verdict (t : tally) (v : verdict) : tally :=
    let '(w, ok, bad, skip) := t in
    match v with IsOk k => (w + k, ok + 1, bad, skip) | IsFailed => (w, ok, bad + 1, skip) | IsSkipped => (w, ok, bad, skip + 1) end%N.
  Lemma count_verdict t r : count t r = tally_verdict t (verdict_of r).
  Proof. destruct t as [[[w ok] bad] skip]. now destruct r. Qed.
  Lemma count_cons {A} (P : A -> Prop) x l n : Count P l n -> P x -> Count P (x :: l) (n + 1).
  Proof. intros (l' & S & <-) Hx. exists (x :: l'). split; [now constructor|]. cbn [length]. lia. Qed.
  Lemma count_cons_no {A} (P : A -> Prop) x l n : Count P l n -> ~ P x -> Count P (x :: l) n.
  Proof. intros (l' & S & <-) Hx. exists l'. split; [now constructor|reflexivity]. Qed.
  Lemma tally_totals vs : forall w ok bad skip, exists a b c, totals vs (files_written vs) a b c /\
    fold_left tally_verdict vs (w, ok, bad, skip) = (w + files_written vs, ok + a, bad + b, skip + c)%N.
  Proof.
    induction vs as [|v vs IH]; intros w ok bad skip.
    - exists 0%N, 0%N, 0%N. split; [|cbn; now rewrite !N.add_0_r]. split; [reflexivity|]. repeat split; exists []; (split; [constructor|reflexivity]).
    - cbn [fold_left tally_verdict]. destruct v as [k| |].
      + destruct (IH (w + k) (ok + 1) bad skip)%N as (a & b & c & (_ & T1 & T2 & T3) & ->). exists (a + 1)%N, b, c. split; [|cbn [files_written]; apply f_equal2; [apply f_equal2; [apply f_equal2|]|]; lia].
        split; [reflexivity|]. split; [now apply count_cons|]. split; apply count_cons_no; try assumption; discriminate.
      + destruct (IH w ok (bad + 1) skip)%N as (a & b & c & (_ & T1 & T2 & T3) & ->). exists a, (b + 1)%N, c. split; [|cbn [files_written]; apply f_equal2; [apply f_equal2; [apply f_equal2|]|]; lia].
        split; [reflexivity|]. split; [apply count_cons_no; [assumption|easy]|]. split; [now apply count_cons|apply count_cons_no; try assumption; discriminate].
      + destruct (IH w ok bad (skip + 1))%N as (a & b & c & (_ & T1 & T2 & T3) & ->). exists a, b, (c + 1)%N. split; [|cbn [files_written]; apply f_equal2; [apply f_equal2; [apply f_equal2|]|]; lia].
        split; [reflexivity|]. split; [apply count_cons_no; [assumption|easy]|]. split; [apply count_cons_no; try assumption; discriminate|now apply count_cons].
  Qed.
  Lemma treated_all_cons in_dir before src srcs evs rest v vs : Treated H O fuel in_dir before src evs v -> TreatedAll H O fuel in_dir (before ++ evs) srcs rest vs ->
    TreatedAll H O fuel in_dir before (src :: srcs) (evs ++ rest) (v :: vs).
  Proof. apply all_cons. Qed.
  Lemma process_all_spec in_dir srcs : forall t s evs, Forall PapyriFile srcs -> Kept s -> InUse s ->
    match process_all H O fuel srcs in_dir t s evs with
    | Go t' s' evs' => exists new vs, evs' = evs ++ new /\ TreatedAll H O fuel in_dir evs srcs new vs /\ t' = fold_left tally_verdict vs t
    | Stop r evs' => exists done_ src rest new vs new', srcs = done_ ++ src :: rest /\ TreatedAll H O fuel in_dir evs done_ new vs /\
                     Interrupted H O fuel in_dir (evs ++ new) src new' r /\ evs' = evs ++ new ++ new'
    | Ice evs' => exists done_ rest new vs, srcs = done_ ++ rest /\ TreatedAll H O fuel in_dir evs done_ new vs /\ evs' = evs ++ new
    | Starved => True
    end.
  Proof.
    induction srcs as [|src srcs IH]; intros t s evs F K U; cbn [process_all].
    - exists [], []. rewrite app_nil_r. split; [reflexivity|]. split; [constructor|reflexivity].
    - inversion F as [|? ? F1 F2]; subst. unfold cbind. pose proof (process_spec src in_dir s evs F1 K U) as P.
      destruct (process_source_file H O fuel src in_dir s evs) as [r s1 evs1|r evs1|evs1|]; [| | |exact I].
      + destruct P as (K1 & U1 & new & -> & T). specialize (IH (count t r) s1 (evs ++ new) F2 K1 U1).
        destruct (process_all H O fuel srcs in_dir (count t r) s1 (evs ++ new)) as [t' s2 evs2|r2 evs2|evs2|]; [| | |exact I].
        * destruct IH as (new' & vs & -> & A & ->). exists (new ++ new'), (verdict_of r :: vs). split; [now rewrite app_assoc|].
          split; [now apply all_cons|]. cbn [fold_left]. now rewrite count_verdict.
        * destruct IH as (done_ & src' & rest & new1 & vs & new2 & -> & A & IN & ->). exists (src :: done_), src', rest, (new ++ new1), (verdict_of r :: vs), new2.
          split; [reflexivity|]. split; [now apply all_cons|]. rewrite app_assoc. split; [exact IN|]. now rewrite !app_assoc.
        * destruct IH as (done_ & rest & new1 & vs & -> & A & ->). exists (src :: done_), rest, (new ++ new1), (verdict_of r :: vs).
          split; [reflexivity|]. split; [now apply all_cons|]. now rewrite !app_assoc.
      + destruct P as (new & -> & IN). exists [], src, srcs, [], [], new. rewrite app_nil_r. split; [reflexivity|]. split; [constructor|]. auto.
      + subst evs1. exists [], (src :: srcs), [], []. rewrite app_nil_r. split; [reflexivity|]. split; [constructor|reflexivity].
  Qed.
End Run.

Lemma context_kept H O fuel s : x_regex (h_X H []) std_regex <> None ->
  context_new (cli_X H O []) std_papyri fuel (if o_ignore_warnings O then LError else LWarning) (o_out_dir O) = Ok tt s ->
  Fresh (reporting O) (o_out_dir O) s.
Proof.
  intros RX C. assert (RX' : x_regex (cli_X H O []) std_regex <> None) by (unfold cli_X; destruct (o_allow_http O); exact RX).
  destruct (std_compiles (cli_X H O []) (fuel + 40) (reporting O) (o_out_dir O) RX') as (s' & C' & F); [lia|].
  destruct (le_context (cli_X H O []) std_papyri fuel (fuel + 40) (reporting O) (o_out_dir O)) as [L|L]; [lia| |]; fold (reporting O) in C; rewrite L in C; [discriminate C|].
  rewrite C' in C. injection C as ->. exact F.
Qed.
Lemma same_options O : o_stdin O = false -> {| o_version := o_version O; o_skip_unchanged := o_skip_unchanged O; o_silent := o_silent O || o_stdin O;
     o_ignore_warnings := o_ignore_warnings O; o_text := o_text O; o_stdin := o_stdin O; o_out_dir := o_out_dir O;
     o_allow_http := o_allow_http O; o_paths := o_paths O |} = O.
Proof. destruct O; cbn. intros ->. now rewrite orb_false_r. Qed.

Lemma fresh_kept O s : Fresh (reporting O) (o_out_dir O) s -> Kept O s.
Proof. intros (F1 & _ & _ & _ & F). split; [now rewrite F1|exact F]. Qed.
Definition args O := match o_paths O with [] => [lit "."] | ps => ps end.
Lemma sources_papyri H O srcs : Sources H O srcs -> Forall PapyriFile srcs.
Proof. intros (_ & S & _). apply Forall_forall. intros p I. apply S in I as (arg & _ & F). now apply found_papyri in F. Qed.
Lemma message_final w ok bad skip : message (w, ok, bad, skip) = final_line w ok bad skip.
Proof. reflexivity. Qed.

(** The tool with source files *)
Lemma run_spec H O fuel version status evs : o_version O = false -> o_stdin O = false -> x_regex (h_X H []) std_regex <> None ->
  main H O fuel version = Ret (status, evs) ->
  (status = Aborted /\ evs = []) \/ (status = Failure NoWorkingDirectory /\ h_cwd H = None /\ evs = []) \/
  exists in_dir complaints rest, h_cwd H = Some in_dir /\ evs = complaints ++ rest /\ Forall Complaint complaints /\
    (rest = [] /\ (exists arg, In arg (args O) /\ (status = Failure (BadPattern arg) \/ status = Failure (PatternError arg))) \/
     exists srcs, Sources H O srcs /\
     ((exists new vs ok bad skip, TreatedAll H O fuel in_dir complaints srcs new vs /\ totals vs (files_written vs) ok bad skip /\
         let line := final_line (files_written vs) ok bad skip in
         (bad = 0%N /\ status = Success /\ rest = new ++ (if o_silent O then [] else [Said line]) \/
          bad <> 0%N /\ status = Failure (SomeFailed line) /\ rest = new)) \/
      (exists done_ src others new vs new' r, srcs = done_ ++ src :: others /\ TreatedAll H O fuel in_dir complaints done_ new vs /\
         Interrupted H O fuel in_dir (complaints ++ new) src new' r /\ rest = new ++ new' /\ status = Failure r) \/
      (exists done_ others vs, srcs = done_ ++ others /\ TreatedAll H O fuel in_dir complaints done_ rest vs /\ status = Aborted))).
Proof.
  intros V SI RX M. unfold main in M. cbv zeta in M. rewrite same_options in M by exact SI. rewrite V, SI in M. fold (args O) in M.
  destruct (context_new (cli_X H O []) std_papyri fuel (if o_ignore_warnings O then LError else LWarning) (o_out_dir O)) as [u s|e s| |] eqn:C.
  2-3: injection M as <- <-; left; auto.
  2: discriminate M.
  destruct u. pose proof (fresh_kept _ _ (context_kept H O fuel s RX C)) as K.
  assert (U : InUse H O fuel s) by (exists s; split; [exact C|apply used_not]). clear C. right.
  unfold run in M. rewrite SI in M. destruct (h_cwd H) as [in_dir|]; [|injection M as <- <-; left; auto].
  right. unfold cbind at 1 in M. pose proof (get_source_paths_spec H O s []) as G. cbv zeta in G. fold (args O) in G.
  destruct (get_source_paths H (args O) s []) as [srcs s1 evs1|r evs1|evs1|]; try contradiction.
  - destruct G as (-> & (complaints & -> & FC) & S). cbn [app] in M. unfold cbind in M.
    pose proof (process_all_spec H O fuel in_dir srcs (0, 0, 0, 0)%N s complaints (sources_papyri _ _ _ S) K U) as P.
    destruct (process_all H O fuel srcs in_dir (0, 0, 0, 0)%N s complaints) as [t s2 evs2|r evs2|evs2|]; [| | |discriminate M].
    + destruct P as (new & vs & -> & A & ->). destruct (tally_totals vs 0 0 0 0) as (ok & bad & skip & T & E). rewrite E in M. cbn beta iota in M.
      rewrite !N.add_0_l in M. exists in_dir, complaints. destruct (0 <? bad)%N eqn:B.
      * injection M as <- <-. exists new. split; [reflexivity|]. split; [reflexivity|]. split; [exact FC|]. right. exists srcs. split; [exact S|]. left.
        exists new, vs, ok, bad, skip. split; [exact A|]. split; [exact T|]. cbv zeta. right. apply N.ltb_lt in B. split; [lia|]. split; reflexivity.
      * destruct (say_spec O (message (files_written vs, ok, bad, skip)) s2 (complaints ++ new)) as (l & EL & _ & El). rewrite EL in M. injection M as <- <-.
        exists (new ++ l). split; [reflexivity|]. split; [now rewrite app_assoc|]. split; [exact FC|]. right. exists srcs. split; [exact S|]. left.
        exists new, vs, ok, bad, skip. split; [exact A|]. split; [exact T|]. cbv zeta. left. apply N.ltb_ge in B. split; [lia|]. split; [reflexivity|]. now rewrite El.
    + injection M as <- <-. destruct P as (done_ & src & others & new & vs & new' & E & A & IN & ->). exists in_dir, complaints, (new ++ new'). split; [reflexivity|]. split; [reflexivity|].
      split; [exact FC|]. right. exists srcs. split; [exact S|]. right. left. exists done_, src, others, new, vs, new', r. auto.
    + injection M as <- <-. destruct P as (done_ & others & new & vs & E & A & ->). exists in_dir, complaints, new. split; [reflexivity|]. split; [reflexivity|].
      split; [exact FC|]. right. exists srcs. split; [exact S|]. right. right. exists done_, others, vs. auto.
  - injection M as <- <-. destruct G as ((new & -> & FC) & (arg & I & R)). exists in_dir, new, []. rewrite app_nil_r. split; [reflexivity|]. split; [reflexivity|]. split; [exact FC|].
    left. split; [reflexivity|]. exists arg. split; [exact I|]. destruct R as [-> | ->]; auto.
Qed.
(** The tool with stdin *)
Lemma run_stdin_spec H O fuel version status evs : o_version O = false -> o_stdin O = true -> x_regex (h_X H []) std_regex <> None ->
  main H O fuel version = Ret (status, evs) ->
  (exists text s0 h exports s es, h_stdin H = Some text /\ Fresh (reporting O) None s0 /\ compile (cli_X H O []) fuel (lit "<stdin>") text s0 = Ok (h, exports) s /\
     Reported s0 s es /\
     (Forall (fun e => ~ Diagnostic e) es /\ (evs = [Printed (render (negb (o_text O)) h)] /\ status = Success \/ evs = [] /\ status = Failure StdoutFailed) \/
      ~ Forall (fun e => ~ Diagnostic e) es /\ exists ds line, Selected (AtLevel (reporting O)) es ds /\ evs = [Compiled (lit "<stdin>") ds] /\ status = Failure (StdinDiagnosed line))) \/
  evs = [] /\ (status = Aborted \/ status = Failure StdinWithPaths /\ o_paths O <> [] \/ status = Failure StdinWithOut /\ o_out_dir O <> None \/
    status = Failure StdinUnreadable /\ h_stdin H = None).
Proof.
  intros V SI RX M. unfold main in M. rewrite V in M. cbv zeta in M. rewrite SI in M.
  set (O' := Options _ _ _ _ _ _ _ _ _) in M.
  assert (CX : cli_X H O' = cli_X H O) by reflexivity. rewrite CX in M. change (o_ignore_warnings O') with (o_ignore_warnings O) in M. change (o_out_dir O') with (o_out_dir O) in M.
  destruct (context_new (cli_X H O []) std_papyri fuel (if o_ignore_warnings O then LError else LWarning) (o_out_dir O)) as [u s|e s| |] eqn:C.
  2-3: injection M as <- <-; right; split; [reflexivity|intuition discriminate].
  2: discriminate M.
  destruct u. pose proof (context_kept H O fuel s RX C) as F. clear C.
  unfold run in M. change (o_stdin O') with true in M. cbv iota in M. unfold run_stdin in M. change (o_out_dir O') with (o_out_dir O) in M. change (o_paths O') with (o_paths O) in M.
  destruct (o_paths O) as [|p ps]; [|injection M as <- <-; right; split; [reflexivity|intuition discriminate]].
  destruct (o_out_dir O) as [d|]; [injection M as <- <-; right; split; [reflexivity|intuition discriminate]|].
  destruct (h_stdin H) as [text|]; [|injection M as <- <-; right; split; [reflexivity|intuition discriminate]].
  unfold cbind at 1 in M. unfold compiler in M. rewrite CX in M.
  destruct (compile (cli_X H O []) fuel (lit "<stdin>") text s) as [[h exports] s1|e s1| |] eqn:Cm; [| | |discriminate M].
  2: { now destruct (compile_no_err _ _ _ _ _ _ _ Cm). }
  2: { injection M as <- <-; right; split; [reflexivity|intuition discriminate]. }
  assert (AF : after (compile (cli_X H O []) fuel (lit "<stdin>") text s) = Some s1) by now rewrite Cm.
  destruct (built_reports any_key true _ _ (built_compile (cli_X H O []) fuel (lit "<stdin>") text true) s s1 AF) as [es He].
  assert (SK : SinkIs (reporting O) es (st_sink s1)) by (eapply reported_fresh; [apply F|exact He]).
  left. exists text, s, h, exports, s1, es. split; [reflexivity|]. split; [exact F|]. split; [exact Cm|]. split; [exact He|].
  pose proof (sink_is_empty_spec _ _ _ SK) as SE. unfold cbind at 1, look in M. destruct (sink_is_empty (st_sink s1)).
  - left. split; [now apply SE|]. destruct (h_stdout H); unfold emit, stop in M; injection M as <- <-; auto.
  - right. split; [intro Z; apply SE in Z; discriminate Z|]. unfold cbind, emit, stop in M. injection M as <- <-.
    eexists _, _. split; [apply SK|]. split; reflexivity.
Qed.

(** * Consequences *)
Lemma clean_app a b : Clean b -> Clean (a ++ b).
Proof. intros (x & src & ds & y & -> & C). exists (a ++ x), src, ds, y. split; [now rewrite <- app_assoc|exact C]. Qed.
Definition WOK (evs : list event) : Prop := forall pre e post p, evs = pre ++ e :: post -> IsWrite e p -> Clean pre.
Lemma wok_app a b : WOK a -> WOK b -> WOK (a ++ b).
Proof.
  intros Ha Hb pre e post p E W. apply app_eq_app in E as (l & [[-> E]|[-> E]]).
  - destruct l as [|x l].
    + cbn in E. rewrite app_nil_r in *. rewrite <- (app_nil_r pre). apply clean_app. apply (Hb [] e post p); [now rewrite E|exact W].
    + injection E as <- ->. apply (Ha pre e l p); [reflexivity|exact W].
  - apply clean_app. apply (Hb l e post p); [exact E|exact W].
Qed.
Lemma wok_lines evs : Forall (fun e => forall p, ~ IsWrite e p) evs -> WOK evs.
Proof. intros F pre e post p -> W. apply Forall_app in F as [_ F]. inversion F as [|? ? F1]; subst. now destruct (F1 p). Qed.
Lemma said_lines O line : Forall Line (said O line).
Proof. unfold said. destruct (o_silent O); repeat constructor. Qed.
Lemma summarised_lines O src es quiet evs : Summarised O src es quiet evs -> Forall Line evs.
Proof. intros []; [apply said_lines| |]; repeat constructor. Qed.
Lemma line_no_write e : Line e -> forall p, ~ IsWrite e p.
Proof. destruct e; intros L p [[t E]|E]; try discriminate E; exact L. Qed.
Lemma lines_no_write evs : Forall Line evs -> Forall (fun e => forall p, ~ IsWrite e p) evs.
Proof. intro F. eapply Forall_impl; [|exact F]. apply line_no_write. Qed.
Lemma compiled_no_write src ds p : ~ IsWrite (Compiled src ds) p.
Proof. intros [[t E]|E]; discriminate E. Qed.
Lemma writes_events H O files evs : Writes H O files evs -> Forall (fun e => Line e \/ exists p, IsWrite e p) evs.
Proof.
  unfold IsWrite. induction 1; constructor; eauto; apply Forall_app; (split; [|assumption]); (eapply Forall_impl; [|apply said_lines]); auto.
Qed.
Lemma line_writes H O src es quiet line files evs : Summarised O src es quiet line -> Writes H O files evs ->
  Forall (fun e => Line e \/ exists p, IsWrite e p) (line ++ evs).
Proof. intros S W. apply Forall_app. split; [|eapply writes_events, W]. eapply Forall_impl; [|eapply summarised_lines, S]. auto. Qed.
Lemma wok_writes src ds evs last : ~ HasError ds -> Forall (fun e => Line e \/ exists p, IsWrite e p) evs -> length last <= 1 ->
  WOK (Compiled src ds :: evs ++ last).
Proof.
  intros NE F LL pre e post p E W. destruct pre as [|x pre]; [injection E as <- _; now destruct (compiled_no_write src ds p)|].
  injection E as <- E. exists [], src, ds, pre. split; [reflexivity|]. split; [exact NE|].
  apply app_eq_app in E as (l & [[-> E]|[-> E]]); [now apply Forall_app in F as [F _]|].
  destruct l as [|y l]; [now rewrite app_nil_r|]. rewrite E in LL. cbn in LL. rewrite app_length in LL. cbn in LL. lia.
Qed.
Lemma wok_treated H O fuel in_dir before src evs v : Treated H O fuel in_dir before src evs v -> WOK evs.
Proof.
  intros [_|out a b _ _ _ _ _ _|es ds c h evs0 _ _ _ F|es ds c h evs0 _ _ _ _ F|es ds c h files line evs0 _ _ NE _ _ F W].
  - apply wok_lines, lines_no_write, said_lines.
  - apply wok_lines, lines_no_write, said_lines.
  - apply wok_lines. constructor; [intro; apply compiled_no_write|eapply lines_no_write, summarised_lines, F].
  - apply wok_lines. constructor; [intro; apply compiled_no_write|eapply lines_no_write, summarised_lines, F].
  - rewrite <- (app_nil_r (line ++ evs0)). apply wok_writes; [exact NE|eapply line_writes; eassumption|cbn; lia].
Qed.
Lemma wok_treated_all H O fuel in_dir before srcs evs vs : TreatedAll H O fuel in_dir before srcs evs vs -> WOK evs.
Proof.
  induction 1; [intros pre e post p E; destruct pre; discriminate E|]. apply wok_app; [eapply wok_treated; eassumption|assumption].
Qed.
Lemma wok_interrupted H O fuel in_dir before src evs r : Interrupted H O fuel in_dir before src evs r -> WOK evs.
Proof.
  intros [d _ _|_|es ds c h files dn p doc rest line evs0 evs' r0 _ NE _ _ F W R]; [apply wok_lines; constructor|apply wok_lines; constructor|].
  rewrite app_assoc. apply wok_writes; [exact NE|eapply line_writes; eassumption|]. destruct R as [[-> _]|[[-> _]|[-> _]]]; cbn; lia.
Qed.
Lemma wok_complaints evs : Forall Complaint evs -> WOK evs.
Proof.
  intro F. apply wok_lines. eapply Forall_impl; [|exact F]. intros e C p [[t ->]| ->]; exact C.
Qed.
Lemma writes_clean H O fuel version status evs : x_regex (h_X H []) std_regex <> None -> main H O fuel version = Ret (status, evs) ->
  forall pre e post p, evs = pre ++ e :: post -> IsWrite e p -> Clean pre.
Proof.
  intros RX M. change (WOK evs). destruct (o_version O) eqn:V.
  { unfold main in M. rewrite V in M. injection M as <- <-. apply wok_lines. constructor; [|constructor]. intros p [[t E]|E]; discriminate E. }
  destruct (o_stdin O) eqn:SI.
  - destruct (run_stdin_spec _ _ _ _ _ _ V SI RX M) as [(text & s0 & h & x & s & es & _ & _ & _ & _ & [[_ [[-> _]|[-> _]]]|(_ & ds & line & _ & -> & _)])|[-> _]];
      apply wok_lines; repeat constructor; intros p [[t E]|E]; discriminate E.
  - destruct (run_spec _ _ _ _ _ _ V SI RX M) as [[_ ->]|[(_ & _ & ->)|(in_dir & complaints & rest & _ & -> & FC & B)]]; try (apply wok_lines; constructor; fail).
    apply wok_app; [now apply wok_complaints|].
    destruct B as [[-> _]|(srcs & _ & [(new & vs & ok & bad & skip & A & _ & [(_ & _ & ->)|(_ & _ & ->)])|[(dn & src & others & new & vs & new' & r & _ & A & I & -> & _)|(dn & others & vs & _ & A & _)]])].
    + apply wok_lines; constructor.
    + apply wok_app; [eapply wok_treated_all; exact A|]. apply wok_lines. destruct (o_silent O); repeat constructor. intros p [[t E]|E]; discriminate E.
    + eapply wok_treated_all; exact A.
    + apply wok_app; [eapply wok_treated_all; exact A|eapply wok_interrupted; exact I].
    + eapply wok_treated_all; exact A.
Qed.

Lemma some_error_app a b : SomeError (a ++ b) <-> SomeError a \/ SomeError b.
Proof.
  unfold SomeError. split.
  - intros (src & ds & I & E). apply in_app_or in I as [I|I]; [left|right]; exists src, ds; auto.
  - intros [(src & ds & I & E)|(src & ds & I & E)]; exists src, ds; (split; [apply in_or_app; auto|exact E]).
Qed.
Lemma no_error_lines (P : event -> Prop) evs : (forall src ds, ~ P (Compiled src ds)) -> Forall P evs -> ~ SomeError evs.
Proof. intros N F (src & ds & I & _). rewrite Forall_forall in F. now apply (N src ds), F. Qed.
Lemma no_error_line evs : Forall Line evs -> ~ SomeError evs.
Proof. apply no_error_lines. intros src ds L. exact L. Qed.
Lemma no_error_write evs : Forall (fun e => Line e \/ exists p, IsWrite e p) evs -> ~ SomeError evs.
Proof. apply no_error_lines. intros src ds [L|(p & [(t & E)|E])]; [exact L|discriminate E|discriminate E]. Qed.
Lemma some_error_cons src ds evs : SomeError (Compiled src ds :: evs) <-> HasError ds \/ SomeError evs.
Proof.
  unfold SomeError. split.
  - intros (a & b & [[= <- <-]|I] & E); [now left|right; exists a, b; auto].
  - intros [E|(a & b & I & E)]; [exists src, ds|exists a, b]; (split; [|exact E]); [now left|now right].
Qed.
Lemma treated_error H O fuel in_dir before src evs v : Treated H O fuel in_dir before src evs v -> (SomeError evs <-> v = IsFailed).
Proof.
  intros [_|out a b _ _ _ _ _ _|es ds c h evs0 _ _ E F|es ds c h evs0 _ _ NE _ F|es ds c h files line evs0 _ _ NE _ _ F W].
  - split; [intro X; apply no_error_line in X; [easy|apply said_lines]|discriminate].
  - split; [intro X; apply no_error_line in X; [easy|apply said_lines]|discriminate].
  - split; [reflexivity|]. intros _. apply some_error_cons. now left.
  - split; [|discriminate]. intro X. apply some_error_cons in X as [X|X]; [easy|apply no_error_line in X; [easy|eapply summarised_lines, F]].
  - split; [|discriminate]. intro X. apply some_error_cons in X as [X|X]; [easy|]. apply no_error_write in X; [easy|eapply line_writes; eassumption].
Qed.
Lemma treated_all_error H O fuel in_dir before srcs evs vs : TreatedAll H O fuel in_dir before srcs evs vs -> (SomeError evs <-> In IsFailed vs).
Proof.
  induction 1 as [before|before src srcs evs rest v vs T _ IH]; [split; [intros (? & ? & [] & _)|intros []]|].
  rewrite some_error_app, (treated_error _ _ _ _ _ _ _ _ T), IH. cbn. intuition.
Qed.
Lemma count_in {A} (P : A -> Prop) l n : Count P l n -> (n <> 0%N <-> exists x, In x l /\ P x).
Proof.
  intros (l' & S & <-). split.
  - destruct l' as [|x l']; [cbn; lia|]. intros _. exists x. remember (x :: l') as m eqn:E. revert E. induction S; intro E; [discriminate| |].
    + injection E as -> _. split; [now left|assumption].
    + destruct (IHS E). split; [now right|assumption].
  - intros (x & I & Px). induction S; [destruct I| |]; cbn [length]; [lia|]. destruct I as [->|I]; [easy|auto].
Qed.
Lemma complaints_no_error evs : Forall Complaint evs -> ~ SomeError evs.
Proof. apply no_error_lines. intros src ds C. exact C. Qed.
Lemma exit_spec H O fuel version status evs : x_regex (h_X H []) std_regex <> None -> main H O fuel version = Ret (status, evs) ->
  (status = Success -> ~ SomeError evs) /\ (forall line, status = Failure (SomeFailed line) -> SomeError evs).
Proof.
  intros RX M. destruct (o_version O) eqn:V.
  { unfold main in M. rewrite V in M. injection M as <- <-. split; [|discriminate]. intros _ (src & ds & [E|[]] & _). discriminate E. }
  destruct (o_stdin O) eqn:SI.
  - destruct (run_stdin_spec _ _ _ _ _ _ V SI RX M) as [(text & s0 & h & x & s & es & _ & _ & _ & _ & [[_ [[-> ->]|[-> ->]]]|(_ & ds & line & _ & -> & ->)])|[-> NS]];
      try (split; [discriminate|]); try discriminate.
    + split; [|discriminate]. intros _ (src & ds & [E|[]] & _). discriminate E.
    + split; intros; intuition congruence.
  - destruct (run_spec _ _ _ _ _ _ V SI RX M) as [[-> ->]|[(-> & _ & ->)|(in_dir & complaints & rest & _ & -> & FC & B)]]; try (split; discriminate).
    destruct B as [[-> (arg & _ & [-> | ->])]|(srcs & _ & [(new & vs & ok & bad & skip & A & (_ & _ & Cb & _) & [(B0 & -> & ->)|(B0 & -> & ->)])|[(dn & src & others & new & vs & new' & r & _ & A & I & -> & ->)|(dn & others & vs & _ & A & ->)]])];
      try (split; discriminate).
    + split; [|discriminate]. intros _ X. apply some_error_app in X as [X|X]; [now apply complaints_no_error in X|].
      apply some_error_app in X as [X|X].
      * apply (treated_all_error _ _ _ _ _ _ _ _ A) in X. apply (proj2 (count_in _ _ _ Cb)); [|exact B0]. exists IsFailed. auto.
      * destruct (o_silent O); destruct X as (src & ds & X & _); [destruct X|]. destruct X as [E|[]]. discriminate E.
    + split; [discriminate|]. intros line [= <-]. apply some_error_app. right. apply (treated_all_error _ _ _ _ _ _ _ _ A).
      apply (count_in _ _ _ Cb) in B0 as (v & Iv & ->). exact Iv.
    + split; [discriminate|]. intros line [= ->]. inversion I; subst. intuition discriminate.
Qed.

(** * Where the files are written *)
Definition NamedFile (f : list comp * html) : Prop := exists ns, fst f = List.map Norm ns /\ Forall ValidName ns.
Definition CollectedNamed (s s' : st) : Prop :=
  match st_out s, st_out s' with
  | None, None => True
  | Some o, Some o' => base_path o' = base_path o /\ exists new, out_v o' = out_v o ++ new /\ (base_path o <> [] -> Forall NamedFile new)
  | _, _ => False
  end.
Lemma named_same s s' : st_out s' = st_out s -> CollectedNamed s s'.
Proof. intro E. unfold CollectedNamed. rewrite E. destruct (st_out s); [|exact I]. split; [reflexivity|]. exists []. rewrite app_nil_r. split; [reflexivity|constructor]. Qed.
Lemma built_named K w A (m : EM A) : Built K w A m -> forall s s', after (m s) = Some s' -> CollectedNamed s s'.
Proof.
  apply built_rel; try (intros; now apply named_same).
  - intros s1 s2 s3. unfold CollectedNamed. destruct (st_out s1), (st_out s2), (st_out s3); try contradiction; auto.
    intros (A1 & n1 & B1 & C1) (A2 & n2 & B2 & C2). split; [congruence|]. exists (n1 ++ n2). rewrite B2, B1, app_assoc. split; [reflexivity|].
    intro NE. apply Forall_app. split; [auto|]. apply C2. congruence.
  - intros s o p h o' Ho Hp. unfold CollectedNamed. st_simpl. rewrite Ho. unfold try_push in Hp.
    destruct (make_relative (base_path o) p) as [cs|] eqn:E; [|discriminate]. injection Hp as <-. split; [reflexivity|]. eexists. split; [reflexivity|].
    intro NE. constructor; [|constructor]. destruct (make_relative_names _ _ _ NE E) as (ns & -> & V). exists ns. auto.
  - intros s c bs s' _ H. exact H.
  - intros s s' H. exact H.
Qed.
Definition Inside (wd od : list str) (p : str) : Prop := exists names, Forall ValidName names /\ Denotes wd p (od ++ names).
Lemma inside_join wd d od ns : d <> [] -> Forall ValidName ns -> Denotes wd d od -> Inside wd od (join d (join_names (List.map Norm ns))).
Proof.
  intros NE V D. exists ns. split; [exact V|]. destruct (parts_join_names _ V) as [A P]. rewrite Denotes_walk in *.
  rewrite components_join by assumption. rewrite P, walk_app, walk_snoc_names. now rewrite D.
Qed.
Lemma denotes_valid wd p f : Forall ValidName wd -> Denotes wd p f -> Forall ValidName f.
Proof.
  intros V D. rewrite Denotes_walk in D. subst f. apply Forall_forall. intros n I. apply walk_names in I as [I|I]; [rewrite Forall_forall in V; auto|].
  destruct (components_shape p) as (pre & E & P). rewrite E in I. apply in_app_or in I as [I|I]; [|now apply (parts_valid p)].
  destruct P as [-> |[[-> _]|[-> _]]]; [destruct I| |]; destruct I as [I|[]]; discriminate I.
Qed.
Section Inside.
  Variable H : host.
  Variable O : options.
  Variable fuel : nat.
  Variables (in_dir d : str) (wd od : list str).
  Hypothesis SD : SaneDirectory H in_dir wd.
  Hypothesis OD : o_out_dir O = Some d.
  Hypothesis DN : d <> [].
  Hypothesis DD : Denotes wd d od.
  Lemma collected_inside before src ds collected h : Compilation H O fuel before src ds collected h -> Forall (fun f => Inside wd od (fst f)) collected.
  Proof.
    intros (es & text & s0 & x & s & _ & (_ & _ & R) & _ & C & _ & _ & ->). rewrite OD in *.
    assert (AF : after (compile (cli_X H O before) fuel src text s0) = Some s) by now rewrite C.
    pose proof (built_named any_key true _ _ (built_compile (cli_X H O before) fuel src text true) s0 s AF) as N. unfold CollectedNamed in N.
    destruct (st_out s0) as [o|]; [|contradiction]. destruct (st_out s) as [o'|]; [|contradiction]. destruct R as [R1 R2], N as (N1 & new & N2 & N3).
    rewrite R2 in N2. cbn in N2. rewrite N2. specialize (N3 ltac:(congruence)). apply Forall_forall. intros f I. apply in_map_iff in I as (g & <- & I).
    rewrite Forall_forall in N3. destruct (N3 g I) as (ns & E & V). cbn [fst]. rewrite E. now apply inside_join.
  Qed.
  Lemma read_not_wd before src ds collected h : Compilation H O fuel before src ds collected h -> ~ Denotes wd src wd.
  Proof.
    intros (es & text & s0 & x & s & RD & _) D. destruct SD as (_ & _ & _ & S). specialize (S before src D).
    assert (x_read (cli_X H O before) src = x_read (h_X H before) src) as E by (unfold cli_X; now destruct (o_allow_http O)). congruence.
  Qed.
  Lemma files_inside before src ds collected h files : Compilation H O fuel before src ds collected h -> FilesOf O in_dir src collected h files ->
    Forall (fun f => Inside wd od (fst f)) files.
  Proof.
    intros C (out & OP & F). pose proof (collected_inside _ _ _ _ _ C) as CI. pose proof (read_not_wd _ _ _ _ _ C) as NW.
    destruct F as [[_ ->]|[_ ->]]; [exact CI|]. apply Forall_app. split; [exact CI|]. constructor; [|constructor]. cbn [fst].
    destruct SD as (SA & SN & SD' & _). destruct (OP wd SA SN SD') as (dir & n & stem & Ln & PN & Ds & X); [congruence|exact NW|].
    rewrite OD in X. destruct X as (sub & od' & -> & D1 & D2). rewrite (Denotes_fun _ _ _ _ D1 DD) in D2.
    eexists. split; [|exact D2]. assert (VW : Forall ValidName wd) by (eapply (denotes_valid []); [constructor|eassumption]).
    assert (VF : Forall ValidName ((wd ++ sub) ++ [n])) by (eapply denotes_valid; eassumption).
    apply Forall_app in VF as [VF Vn]. apply Forall_app in VF as [_ Vs]. apply Forall_app. split; [exact Vs|]. constructor; [|constructor].
    apply new_name_valid; [|destruct (o_text O); auto]. destruct PN as (_ & ext & -> & _). inversion Vn as [|? ? V1]; subst. intro I. destruct V1 as (_ & V1 & _). apply V1. apply in_or_app. now left.
  Qed.
  Lemma writes_files files evs p : Writes H O files evs -> (exists e, In e evs /\ IsWrite e p) -> In p (List.map fst files).
  Proof.
    induction 1 as [|q h fs evs W IH|q h fs evs HL W IH]; intros (e0 & I & X).
    - destruct I.
    - destruct I as [<-|I].
      + left. destruct X as [[t [= E _]]|E]; [exact E|discriminate E].
      + apply in_app_or in I as [I|I]; [|right; apply IH; eauto]. pose proof (said_lines O (lit "    => " ++ q)) as L. rewrite Forall_forall in L.
        now apply (line_no_write _ (L _ I)) in X.
    - destruct I as [<-|I].
      + left. destruct X as [[t [=]]|[= E]]. exact E.
      + apply in_app_or in I as [I|I]; [|right; apply IH; eauto]. pose proof (said_lines O (lit "    => " ++ q)) as L. rewrite Forall_forall in L.
        now apply (line_no_write _ (L _ I)) in X.
  Qed.
  Lemma lines_no e evs p : Forall Line evs -> In e evs -> ~ IsWrite e p.
  Proof. intros F I. rewrite Forall_forall in F. now apply line_no_write, F. Qed.
  Lemma treated_inside before src evs v e p : Treated H O fuel in_dir before src evs v -> In e evs -> IsWrite e p -> Inside wd od p.
  Proof.
    intros [_|out a b _ _ _ _ _ _|es ds c h evs0 _ _ E F|es ds c h evs0 _ _ NE _ F|es ds c h files line evs0 _ C NE FO _ F W] I X;
      try (now destruct (lines_no e _ p (said_lines O _) I)); destruct I as [<-|I]; try (now destruct (compiled_no_write src ds p)).
    - now destruct (lines_no e evs0 p (summarised_lines _ _ _ _ _ F) I).
    - now destruct (lines_no e evs0 p (summarised_lines _ _ _ _ _ F) I).
    - apply in_app_or in I as [I|I]; [now destruct (lines_no e _ p (summarised_lines _ _ _ _ _ F) I)|].
      pose proof (files_inside _ _ _ _ _ _ (ex_intro _ es C) FO) as FI. pose proof (writes_files _ _ p W (ex_intro _ e (conj I X))) as Ip.
      apply in_map_iff in Ip as (f & <- & Ip). rewrite Forall_forall in FI. now apply FI.
  Qed.
  Lemma treated_all_inside before srcs evs vs e p : TreatedAll H O fuel in_dir before srcs evs vs -> In e evs -> IsWrite e p -> Inside wd od p.
  Proof. intro T. induction T as [|before src srcs evs rest v vs T _ IH]; intros I X; [destruct I|]. apply in_app_or in I as [I|I]; [eapply treated_inside; eassumption|auto]. Qed.
  Lemma interrupted_inside before src evs r e p : Interrupted H O fuel in_dir before src evs r -> In e evs -> IsWrite e p -> Inside wd od p.
  Proof.
    intros [d0 _ _|_|es ds c h files dn q doc rest line evs0 evs' r0 C NE FO EF F W R] I X; [destruct I|destruct I|].
    pose proof (files_inside _ _ _ _ _ _ (ex_intro _ es C) FO) as FI. rewrite EF in FI. destruct I as [<-|I]; [now destruct (compiled_no_write src ds p)|].
    apply in_app_or in I as [I|I]; [now destruct (lines_no e _ p (summarised_lines _ _ _ _ _ F) I)|].
    apply Forall_app in FI as [F1 F2]. apply in_app_or in I as [I|I].
    - pose proof (writes_files _ _ p W (ex_intro _ e (conj I X))) as Ip. apply in_map_iff in Ip as (f & <- & Ip). rewrite Forall_forall in F1. now apply F1.
    - inversion F2 as [|? ? F3]; subst. destruct R as [[-> _]|[[-> _]|[-> _]]]; [destruct I|destruct I|]. destruct I as [<-|[]]. destruct X as [[t E]|[= <-]]; [discriminate E|exact F3].
  Qed.
End Inside.
Lemma writes_inside H O fuel version status evs in_dir d wd od : x_regex (h_X H []) std_regex <> None -> main H O fuel version = Ret (status, evs) ->
  h_cwd H = Some in_dir -> SaneDirectory H in_dir wd -> o_out_dir O = Some d -> d <> [] -> Denotes wd d od ->
  forall e p, In e evs -> IsWrite e p -> exists names, Forall ValidName names /\ Denotes wd p (od ++ names).
Proof.
  intros RX M HC SD OD DN DD e p I X. change (Inside wd od p). destruct (o_version O) eqn:V.
  { unfold main in M. rewrite V in M. injection M as <- <-. destruct I as [<-|[]]. destruct X as [[t E]|E]; discriminate E. }
  destruct (o_stdin O) eqn:SI.
  - exfalso. destruct (run_stdin_spec _ _ _ _ _ _ V SI RX M) as [(text & s0 & h & x & s & es & _ & _ & _ & _ & [[_ [[-> _]|[-> _]]]|(_ & ds & line & _ & -> & _)])|[-> _]];
      try destruct I; destruct X as [[t E]|E]; subst; try discriminate; try easy.
  - destruct (run_spec _ _ _ _ _ _ V SI RX M) as [[_ ->]|[(_ & _ & ->)|(in_dir' & complaints & rest & HC' & -> & FC & B)]]; try (destruct I; fail).
    rewrite HC in HC'. injection HC' as <-. apply in_app_or in I as [I|I].
    { exfalso. rewrite Forall_forall in FC. specialize (FC e I). destruct X as [[t ->]| ->]; exact FC. }
    destruct B as [[-> _]|(srcs & _ & [(new & vs & ok & bad & skip & A & _ & [(_ & _ & ->)|(_ & _ & ->)])|[(dn & src & others & new & vs & new' & r & _ & A & Int & -> & _)|(dn & others & vs & _ & A & _)]])].
    + destruct I.
    + apply in_app_or in I as [I|I]; [eapply treated_all_inside; eassumption|]. exfalso. destruct (o_silent O); [destruct I|]. destruct I as [<-|[]]. destruct X as [[t E]|E]; discriminate E.
    + eapply treated_all_inside; eassumption.
    + apply in_app_or in I as [I|I]; [eapply treated_all_inside; eassumption|eapply interrupted_inside; eassumption].
    + eapply treated_all_inside; eassumption.
Qed.

(** * Each source is compiled afresh *)
Definition CompiledFresh H O fuel (before evs : list event) : Prop :=
  forall pre src ds post, evs = pre ++ Compiled src ds :: post -> exists collected h, Compilation H O fuel (before ++ pre) src ds collected h.
Lemma fresh_app H O fuel before a b : CompiledFresh H O fuel before a -> CompiledFresh H O fuel (before ++ a) b -> CompiledFresh H O fuel before (a ++ b).
Proof.
  intros Ha Hb pre src ds post E. apply app_eq_app in E as (l & [[-> E]|[-> E]]).
  - destruct l as [|x l].
    + cbn in E. rewrite app_nil_r in Hb. destruct (Hb [] src ds post) as (c & h & C); [now rewrite E|]. rewrite app_nil_r in C. eauto.
    + injection E as <- ->. now apply (Ha pre src ds l).
  - rewrite app_assoc. now apply (Hb l src ds post).
Qed.
Lemma fresh_none H O fuel before evs : (forall src ds, ~ In (Compiled src ds) evs) -> CompiledFresh H O fuel before evs.
Proof. intros N pre src ds post ->. destruct (N src ds). apply in_elt. Qed.
Lemma fresh_one H O fuel before src ds c h evs : Compilation H O fuel before src ds c h -> (forall src ds, ~ In (Compiled src ds) evs) ->
  CompiledFresh H O fuel before (Compiled src ds :: evs).
Proof.
  intros C N pre src' ds' post E. destruct pre as [|x pre].
  - injection E as <- <- <-. rewrite app_nil_r. eauto.
  - injection E as <- ->. destruct (N src' ds'). apply in_elt.
Qed.
Lemma lines_no_compiled evs : Forall Line evs -> forall src ds, ~ In (Compiled src ds) evs.
Proof. intros F src ds I. rewrite Forall_forall in F. exact (F _ I). Qed.
Lemma writes_no_compiled evs : Forall (fun e => Line e \/ exists p, IsWrite e p) evs -> forall src ds, ~ In (Compiled src ds) evs.
Proof. intros F src ds I. rewrite Forall_forall in F. destruct (F _ I) as [L|(p & [(t & E)|E])]; [exact L|discriminate E|discriminate E]. Qed.
Lemma treated_fresh H O fuel in_dir before src evs v : Treated H O fuel in_dir before src evs v -> CompiledFresh H O fuel before evs.
Proof.
  intros [_|out a b _ _ _ _ _ _|es ds c h evs0 _ C E F|es ds c h evs0 _ C NE _ F|es ds c h files line evs0 _ C NE FO _ F W].
  - apply fresh_none, lines_no_compiled, said_lines.
  - apply fresh_none, lines_no_compiled, said_lines.
  - eapply fresh_one; [exact (ex_intro _ es C)|eapply lines_no_compiled, summarised_lines, F].
  - eapply fresh_one; [exact (ex_intro _ es C)|eapply lines_no_compiled, summarised_lines, F].
  - eapply fresh_one; [exact (ex_intro _ es C)|eapply writes_no_compiled, line_writes; eassumption].
Qed.
Lemma treated_all_fresh H O fuel in_dir before srcs evs vs : TreatedAll H O fuel in_dir before srcs evs vs -> CompiledFresh H O fuel before evs.
Proof. induction 1; [apply fresh_none; intros ? ? []|]. apply fresh_app; [eapply treated_fresh; eassumption|assumption]. Qed.
Lemma interrupted_fresh H O fuel in_dir before src evs r : Interrupted H O fuel in_dir before src evs r -> CompiledFresh H O fuel before evs.
Proof.
  intros [d0 _ _|_|es ds c h files dn q doc rest line evs0 evs' r0 C NE FO EF F W R]; [apply fresh_none; intros ? ? []|apply fresh_none; intros ? ? []|].
  eapply fresh_one; [exact (ex_intro _ es C)|]. rewrite app_assoc. intros src' ds' I. apply in_app_or in I as [I|I]; [eapply writes_no_compiled; [eapply line_writes; eassumption|exact I]|].
  destruct R as [[-> _]|[[-> _]|[-> _]]]; [destruct I|destruct I|]. destruct I as [I|[]]. discriminate I.
Qed.
Lemma compiled_fresh H O fuel version status evs : o_stdin O = false -> x_regex (h_X H []) std_regex <> None -> main H O fuel version = Ret (status, evs) ->
  forall before src ds post, evs = before ++ Compiled src ds :: post -> exists collected h, Compilation H O fuel before src ds collected h.
Proof.
  intros SI RX M. change (CompiledFresh H O fuel [] evs). destruct (o_version O) eqn:V.
  { unfold main in M. rewrite V in M. injection M as <- <-. apply fresh_none. intros ? ? [E|[]]. discriminate E. }
  destruct (run_spec _ _ _ _ _ _ V SI RX M) as [[_ ->]|[(_ & _ & ->)|(in_dir' & complaints & rest & HC' & -> & FC & B)]]; try (apply fresh_none; intros ? ? []).
  apply fresh_app; [apply fresh_none; intros src ds I; rewrite Forall_forall in FC; exact (FC _ I)|]. cbn [app].
  destruct B as [[-> _]|(srcs & _ & [(new & vs & ok & bad & skip & A & _ & [(_ & _ & ->)|(_ & _ & ->)])|[(dn & src & others & new & vs & new' & r & _ & A & Int & -> & _)|(dn & others & vs & _ & A & _)]])].
  - apply fresh_none; intros ? ? [].
  - apply fresh_app; [eapply treated_all_fresh; exact A|]. apply fresh_none. intros src ds I. destruct (o_silent O); [destruct I|]. destruct I as [I|[]]. discriminate I.
  - eapply treated_all_fresh; exact A.
  - apply fresh_app; [eapply treated_all_fresh; exact A|eapply interrupted_fresh; exact Int].
  - eapply treated_all_fresh; exact A.
Qed.

Lemma ex_sane : SaneDirectory (ex_host ex_files None) (lit "/w") [lit "w"].
Proof.
  split; [eexists; reflexivity|]. split; [|split; [now apply Denotes_walk|]].
  - intros a b E. destruct a as [|x [|y a]]; try discriminate E. destruct a; discriminate E.
  - intros evs p D. change (ngetm ex_files p = None). destruct (ngetm ex_files p) as [v|] eqn:E; [exfalso|reflexivity].
    cbn [ngetm ex_files] in E. repeat match type of E with (if str_eqb p ?k then _ else _) = _ => destruct (str_eqb_spec p k); [subst p; apply Denotes_walk in D; discriminate D|] end. discriminate E.
Qed.

Lemma reset_spec s :
  ((forall o, st_out s = Some o -> out_v o = []) -> exists s', reset s = Ok tt s' /\
     (sk_v (st_sink s') = [] /\ sk_errors (st_sink s') = 0%N /\ sk_warnings (st_sink s') = 0%N /\ sk_level (st_sink s') = sk_level (st_sink s)) /\
     st_uids s' = [] /\ st_heap s' = st_heap s /\ st_stack s' = st_stack s /\ st_exports s' = st_exports s /\ st_mods s' = st_mods s /\
     st_out s' = st_out s /\ st_root s' = st_root s) /\
  (forall o, st_out s = Some o -> out_v o <> [] -> reset s = Crash FUncollected).
Proof.
  unfold reset, bind, modify, gets, crash, ret. cbn [st_out set_sink set_uids]. unfold out_is_empty. split.
  - intros H. destruct (st_out s) as [o|] eqn:E.
    + rewrite (H o eq_refl). eexists. split; [reflexivity|]. cbn. repeat split; auto.
    + eexists. split; [reflexivity|]. cbn. repeat split; auto.
  - intros o -> N. destruct (out_v o); [congruence|]. reflexivity.
Qed.
