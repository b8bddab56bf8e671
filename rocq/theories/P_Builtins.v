(** Proofs about the built-in functions (C70). *)
From Verif Require Import Base BaseFacts M_Names M_TagInfo M_Html M_Path M_Types M_Diag M_Ast M_Value M_State M_Binder M_Native M_Eval S_Scope S_Run S_Builtins
  P_Coerce P_Built P_State P_Scope.

(** ** The table, by computation *)
Definition b_group (b : builtin) : string := let '(B g _ _ _ _) := b in g.
Definition b_name (b : builtin) : string := let '(B _ n _ _ _) := b in n.
Definition b_func (b : builtin) : native_func := let '(B _ _ f _ _) := b in f.
Definition b_method (b : builtin) : method := let '(B _ _ _ _ m) := b in m.
Definition keys_ok (s : fsig) : bool := forallb (fun kp => str_eqb (fst kp) (p_name (snd kp))) (s_named s).
Definition sig_ok (b : builtin) : bool :=
  let '(B _ n f sig _) := b in str_eqb (show_sig (native_sig f)) (lit sig) && keys_ok (native_sig f).
Lemma all_sigs_ok : forallb sig_ok builtins = true.
Proof. reflexivity. Qed.
Lemma builtin_value g n f sig m : In (B g n f sig m) builtins -> IsBuiltin f n sig (native_value (lit n, f)).
Proof.
  intro H. pose proof (proj1 (forallb_forall _ _) all_sigs_ok _ H) as E. unfold sig_ok in E. apply andb_true_iff in E as [E1 E2].
  exists (native_sig f). split; [reflexivity|]. split; [now apply str_eqb_eq|].
  intros k p I. pose proof (proj1 (forallb_forall _ _) E2 _ I) as E. now apply str_eqb_eq.
Qed.

Definition entries (g : string) : list builtin := List.filter (fun b => String.eqb (b_group b) g) builtins.
Lemma entries_in g n f sig m : In (B g n f sig m) (entries g) <-> In (B g n f sig m) builtins.
Proof. unfold entries. rewrite filter_In. cbn [b_group]. rewrite String.eqb_refl. tauto. Qed.
Lemma entries_group g b : In b (entries g) -> exists n f sig m, b = B g n f sig m.
Proof. unfold entries. rewrite filter_In. destruct b as [g' n f sig m]. intros [_ E]. cbn [b_group] in E. apply String.eqb_eq in E as ->. eauto. Qed.
Definition values_of (g : string) : list (str * value) := map (fun b => (lit (b_name b), native_value (lit (b_name b), b_func b))) (entries g).
Definition methods_of (g : string) : list (str * (native_func * bool)) :=
  flat_map (fun b => match b_method b with
    | NoMethod => [] | Argument => [(lit (b_name b), (b_func b, false))] | Content => [(lit (b_name b), (b_func b, true))] end) (entries g).
Lemma entries_eq g : entries g = List.filter (fun b => String.eqb (b_group b) g) builtins.
Proof. reflexivity. Qed.
Lemma values_of_eq g : values_of g = map (fun b => (lit (b_name b), native_value (lit (b_name b), b_func b))) (entries g).
Proof. reflexivity. Qed.
Lemma methods_of_eq g : methods_of g =
  flat_map (fun b => match b_method b with
    | NoMethod => [] | Argument => [(lit (b_name b), (b_func b, false))] | Content => [(lit (b_name b), (b_func b, true))] end) (entries g).
Proof. reflexivity. Qed.

Fixpoint distinct (l : list str) : bool := match l with [] => true | a :: l => negb (mem a l) && distinct l end.
Lemma distinct_NoDup l : distinct l = true -> NoDup l.
Proof.
  induction l as [|a l IH]; intro H; constructor; cbn in H; apply andb_true_iff in H as [H1 H2]; auto.
  intro I. apply mem_In in I. rewrite I in H1. discriminate.
Qed.
Definition groups : list string := ["bool"; "int"; "str"; "regex"; "function"; "html"; "list"; "dict"; "file"; "net"; ""]%string.
Lemma groups_all : forallb (fun b => existsb (String.eqb (b_group b)) groups) builtins = true.
Proof. reflexivity. Qed.
Lemma group_in g n f sig m : In (B g n f sig m) builtins -> In g groups.
Proof.
  intro H. pose proof (proj1 (forallb_forall _ _) groups_all _ H) as E. apply existsb_exists in E as (g' & I & E). cbn [b_group] in E.
  apply String.eqb_eq in E as ->. exact I.
Qed.
Lemma names_distinct : forallb (fun g => distinct (map (fun b => lit (b_name b)) (entries g))) groups = true.
Proof. reflexivity. Qed.
Lemma names_NoDup g : In g groups -> NoDup (map (fun b => lit (b_name b)) (entries g)).
Proof. intro I. apply distinct_NoDup. exact (proj1 (forallb_forall _ _) names_distinct _ I). Qed.

Lemma native_locals : fr_locals native_frame =
  map (fun g => (lit g, VDict (values_of g))) (firstn 10 groups) ++ values_of "".
Proof. reflexivity. Qed.
Lemma outer_distinct : distinct (map fst (fr_locals native_frame)) = true.
Proof. reflexivity. Qed.

Lemma values_found g n v : In g groups -> ngetm (values_of g) n = Some v ->
  exists n' f sig m, n = lit n' /\ In (B g n' f sig m) builtins /\ IsBuiltin f n' sig v.
Proof.
  intros Ig H. apply ngetm_In in H. rewrite values_of_eq in H. apply in_map_iff in H as (b & E & I).
  destruct (entries_group _ _ I) as (n' & f & sig & m & Eb). subst b. apply entries_in in I. pose proof (f_equal fst E) as E1. pose proof (f_equal snd E) as E2.
  cbn [fst snd b_name b_func] in E1, E2. subst n v.
  exists n', f, sig, m. split; [reflexivity|]. split; [exact I|]. exact (builtin_value _ _ _ _ _ I).
Qed.
Lemma values_all g n f sig m : In (B g n f sig m) builtins -> ngetm (values_of g) (lit n) = Some (native_value (lit n, f)).
Proof.
  intro H. apply ngetm_NoDup.
  - rewrite values_of_eq. rewrite map_map. cbn [fst]. apply names_NoDup. eapply group_in; eauto.
  - rewrite values_of_eq. apply in_map_iff. exists (B g n f sig m). split; [reflexivity|]. now apply entries_in.
Qed.

Lemma frame_documented n v : ngetm (fr_locals native_frame) n = Some v -> Documented n v.
Proof.
  intro H. apply ngetm_In in H. rewrite native_locals in H. apply in_app_or in H as [H|H].
  - apply in_map_iff in H as (g & E & I). injection E as <- <-.
    assert (In g groups /\ g <> ""%string) as [Ig Ne].
    { cbn in I. cbn. repeat destruct I as [<- | I]; try contradiction; (split; [tauto|discriminate]). }
    apply doc_group; [exact Ne| |].
    + intros n v. now apply values_found.
    + intros n f sig m J. exists (native_value (lit n, f)). split; [eapply values_all; eauto|eapply builtin_value; eauto].
  - assert (ngetm (values_of "") n = Some v) as G.
    { apply ngetm_NoDup; [|exact H]. rewrite values_of_eq. rewrite map_map. cbn [fst]. apply names_NoDup. cbn. tauto. }
    destruct (values_found "" n v) as (n' & f & sig & m & -> & I & B); [cbn; tauto|exact G|]. econstructor; eauto.
Qed.
Lemma frame_complete b : In b builtins -> exists v, ngetm (fr_locals native_frame) (found_under b) = Some v.
Proof.
  intro H. assert (existsb (fun k => str_eqb k (found_under b)) (map fst (fr_locals native_frame)) = true) as E.
  { revert b H. apply forallb_forall. reflexivity. }
  apply existsb_exists in E as (k & I & E). apply str_eqb_eq in E as ->.
  destruct (ngetm (fr_locals native_frame) (found_under b)) as [v|] eqn:G; [eauto|]. apply ngetm_None in G. contradiction.
Qed.

(** ** Methods *)
Lemma native_attr_methods v : native_attr v = methods_of (group_of v).
Proof. destruct v; reflexivity. Qed.
Lemma group_of_in v : In (group_of v) groups.
Proof. destruct v; cbn; tauto. Qed.
Lemma methods_in g n f c : In (n, (f, c)) (methods_of g) -> exists n' sig, n = lit n' /\ In (B g n' f sig (if c : bool then Content else Argument)) builtins.
Proof.
  rewrite methods_of_eq. intro H. apply in_flat_map in H as (b & I & H). destruct (entries_group _ _ I) as (n' & f' & sig & m & ->). apply entries_in in I.
  cbn [b_method b_name b_func] in H. destruct m; [destruct H| |]; destruct H as [H|[]]; injection H as <- <- <-; eauto.
Qed.
Lemma method_is g n f sig m : In (B g n f sig m) builtins -> ngetm (methods_of g) (lit n) =
  match m with NoMethod => None | Argument => Some (f, false) | Content => Some (f, true) end.
Proof.
  intro H. pose proof (names_NoDup g (group_in _ _ _ _ _ H)) as N.
  apply entries_in in H. rewrite methods_of_eq. revert N H. generalize (entries g). induction l as [|b l IH]; intros N H; [destruct H|].
  cbn [map] in N. apply NoDup_cons_iff in N as [N1 N2]. cbn [flat_map].
  assert (Hn : forall b', lit (b_name b') = lit n -> In b' l -> In (lit n) (map (fun b => lit (b_name b)) l)).
  { intros b' <- I'. apply in_map_iff. eauto. }
  destruct H as [-> | H].
  - cbn [b_method b_name b_func] in *. destruct m.
    + cbn [app]. apply ngetm_None. intro I. apply N1. clear - I.
      induction l as [|b l IH]; [destruct I|]. cbn [flat_map] in I. rewrite map_app, in_app_iff in I. cbn [map]. destruct I as [I|I]; [left|right; auto].
      destruct (b_method b); cbn in I; tauto.
    + cbn [app ngetm]. now rewrite str_eqb_refl.
    + cbn [app ngetm]. now rewrite str_eqb_refl.
  - assert (str_eqb (lit n) (lit (b_name b)) = false) as E.
    { destruct (str_eqb (lit n) (lit (b_name b))) eqn:E; [|reflexivity]. apply str_eqb_eq in E. exfalso. apply N1. rewrite <- E.
      apply in_map_iff. exists (B g n f sig m). split; [reflexivity|exact H]. }
    destruct (b_method b); cbn [app ngetm]; rewrite ?E; now apply IH.
Qed.

Lemma methods_spec subject name s :
  (forall n f sig m, name = lit n -> In (B (group_of subject) n f sig m) builtins ->
     exists fs, IsBuiltin f n sig (VFunc (FNative f name fs)) /\
       evaluate_native_attr subject name s =
       match m with
       | NoMethod => Err (NameErr (NoSuchAttribute (get_type subject) name)) s
       | Argument => bind_positional (FNative f name fs) subject s
       | Content => bind_content (FNative f name fs) subject s
       end) /\
  ((forall n f sig m, name = lit n -> ~ In (B (group_of subject) n f sig m) builtins) ->
   evaluate_native_attr subject name s = Err (NameErr (NoSuchAttribute (get_type subject) name)) s).
Proof.
  unfold evaluate_native_attr. rewrite native_attr_methods. split.
  - intros n f sig m -> I. exists (native_sig f). split; [exact (builtin_value _ _ _ _ _ I)|]. rewrite (method_is _ _ _ _ _ I). destruct m; reflexivity.
  - intros Ne. destruct (ngetm (methods_of (group_of subject)) name) as [[f c]|] eqn:E; [|reflexivity]. apply ngetm_In in E.
    destruct (methods_in _ _ _ _ E) as (n' & sig & -> & I). exfalso. eapply Ne; [reflexivity|exact I].
Qed.

(** ** The outermost scope is never changed *)
Definition Outermost (s : st) : Prop :=
  hd_error (st_stack s) <> Some 0 /\ nth_error (st_heap s) 0 = Some native_frame /\
  exists f, nth_error (st_heap s) (st_root s) = Some f /\ fr_parent f = Some 0.
Lemma elsewhere_outermost s s' : SameElsewhere s s' -> Outermost s -> Outermost s'.
Proof.
  intros (E1 & E2 & _ & H) (A & N & f & F & P). destruct (H _ _ N) as (n' & N' & _ & EN). rewrite (EN A) in N'.
  destruct (H _ _ F) as (f' & F' & PF & _). unfold Outermost. rewrite E1, E2. split; [exact A|]. split; [exact N'|].
  exists f'. split; [exact F'|]. now rewrite PF.
Qed.
Lemma built_outermost A (m : EM A) : Built any_key true A m -> forall s s', after (m s) = Some s' -> Outermost s -> Outermost s'.
Proof. intros B s s' H. apply elsewhere_outermost. exact (proj1 (built_running _ _ _ _ B _ _ H)). Qed.
Lemma later_outermost X s s' : Later X s s' -> Outermost s -> Outermost s'.
Proof.
  induction 1 as [s|fuel e t s s1 s2 H H' IH|fuel f bs t src s s1 s2 H H' IH|fuel p s s1 s2 H H' IH|fuel p t s s1 s2 H H' IH|s s1 s2 H H' IH]; intro O; auto; apply IH.
  - exact (built_outermost _ _ (built_node X fuel e t true) _ _ H O).
  - exact (built_outermost _ _ (built_call X fuel f bs t src true) _ _ H O).
  - exact (built_outermost _ _ (built_load X fuel p true) _ _ H O).
  - exact (built_outermost _ _ (built_compile X fuel p t true) _ _ H O).
  - unfold reset, bind, modify, gets in H. st_simpl. destruct (st_out s) as [o|].
    + destruct (out_is_empty o); [|discriminate]. injection H as <-. exact O.
    + injection H as <-. exact O.
Qed.
Lemma context_outermost X stdlib fuel level out s : context_new X stdlib fuel level out = Ok tt s -> Outermost s.
Proof.
  unfold context_new, compile_stdlib. unfold bind at 1. destruct (compile_source X _ _ _ _ (context_start level out)) as [r s1| | |] eqn:E; try discriminate.
  assert (SameElsewhere (context_start level out) s1) as (E1 & E2 & _ & H).
  { refine (proj1 (built_running any_key true _ (compile_source X (evals_n X fuel) (lit "<stdlib>") stdlib RequireEmpty) _ _ _ _)); [|now rewrite E].
    apply built_compile_source; intros; apply built_evals; intros; exact I. }
  destruct (H 0 native_frame eq_refl) as (f & N & _ & EN). rewrite EN in N by discriminate. clear EN. cbn [context_start st_stack st_root] in E1, E2.
  intro K. unfold bind, gets, new_frame, modify in K. st_simpl.
  destruct (sink_is_empty (st_sink s1)); [|discriminate]. injection K as <-. unfold Outermost. st_simpl. rewrite E1. split; [discriminate|].
  split. { rewrite nth_error_app1; [exact N|]. apply nth_error_Some. congruence. }
  eexists. split. { rewrite nth_error_app2 by lia. rewrite Nat.sub_diag. reflexivity. } cbn. now rewrite E2.
Qed.
Lemma outermost_last s is o : Outermost s -> Enclosing (st_heap s) (st_root s) (is ++ [o]) -> o = 0.
Proof.
  intros (_ & N & f & F & P) H.
  assert (Enclosing (st_heap s) (st_root s) [st_root s; 0]) as H'.
  { eapply enc_in; eauto. eapply enc_top; eauto. }
  pose proof (enclosing_fun _ _ _ _ H H') as E. change [st_root s; 0] with ([st_root s] ++ [0]) in E. now apply app_inj_tail in E as [_ ->].
Qed.
Lemma outermost_scope X stdlib fuel level out s0 s : context_new X stdlib fuel level out = Ok tt s0 -> Later X s0 s ->
  exists is o, Enclosing (st_heap s) (st_root s) (is ++ [o]) /\
    (forall n v, BindsAt (st_heap s) o n v -> Documented n v) /\
    (forall b, In b builtins -> exists v, BindsAt (st_heap s) o (found_under b) v).
Proof.
  intros C L. pose proof (later_outermost _ _ _ L (context_outermost _ _ _ _ _ _ C)) as (A & N & f & F & P).
  exists [st_root s], 0. split. { cbn [app]. eapply enc_in; eauto. eapply enc_top; eauto. } split.
  - intros n v (f' & F' & G). rewrite N in F'. injection F' as <-. now apply frame_documented.
  - intros b I. destruct (frame_complete b I) as [v G]. exists v, native_frame. auto.
Qed.
