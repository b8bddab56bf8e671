(** Without positions, the parser of M_ParserPos is the parser of M_Parser. *)
From Verif Require Import Base BaseFacts M_Text M_Names M_TagInfo M_Token M_Tokenizer M_TokenText M_TextSubs M_Types M_Diag M_Queue M_Ast M_Parser M_ParserPos.

Definition erase (s : qstate) : pstate := PState (qs_tokens s) (List.map fst (qs_diags s)).
Definition E {B A} (R : B -> A -> Prop) (q : QM B) (m : PM A) : Prop := forall s,
  match q s, m (erase s) with
  | QOk b s', POk a t => R b a /\ t = erase s'
  | QErr s', PErr t => t = erase s'
  | QPanic, PPanic | QFuel, PFuel => True
  | _, _ => False
  end.
Definition Fst {A B} (b : A * B) (a : A) : Prop := fst b = a.
Lemma e_ret {B A} (R : B -> A -> Prop) b a : R b a -> E R (qret b) (pret a).
Proof. intros H s. now split. Qed.
Lemma e_bind {B A D C} (R : B -> A -> Prop) (Q : D -> C -> Prop) q m f g :
  E R q m -> (forall b a, R b a -> E Q (f b) (g a)) -> E Q (qbind q f) (pbind m g).
Proof.
  intros H K s. unfold qbind, pbind. specialize (H s). destruct (q s), (m (erase s)); try contradiction; auto.
  destruct H as [H ->]. exact (K _ _ H _).
Qed.
Lemma e_report e p : E eq (qreport e p) (preport e).
Proof. intro s. split; [reflexivity|]. unfold erase. cbn. now rewrite map_app. Qed.
Lemma e_serr e p : E eq (qserr e p) (serr e). Proof. apply e_report. Qed.
Lemma e_sfail {B A} (R : B -> A -> Prop) e p : E R (qsfail e p) (sfail e).
Proof. intro s. cbn. unfold erase. cbn. now rewrite map_app. Qed.
Lemma e_ice {B A} (R : B -> A -> Prop) : E R q_ice p_ice. Proof. exact (fun _ => I). Qed.
Lemma e_fuel {B A} (R : B -> A -> Prop) : E R (fun _ => QFuel) (fun _ => PFuel). Proof. exact (fun _ => I). Qed.
Definition Opt {B A} (R : B -> A -> Prop) (b : option B) (a : option A) : Prop := match b, a with Some b, Some a => R b a | None, None => True | _, _ => False end.
Lemma e_ok {B A} (R : B -> A -> Prop) q m : E R q m -> E (Opt R) (q_ok q) (p_ok m).
Proof. intros H s. unfold q_ok, p_ok. specialize (H s). destruct (q s), (m (erase s)); try contradiction; auto. now split. Qed.
Lemma e_map_err {B A} (R : B -> A -> Prop) q m h k : E R q m -> E eq h k -> E R (q_map_err q h) (map_err m k).
Proof.
  intros H K s. unfold q_map_err, map_err. specialize (H s). destruct (q s) as [b s'|s'| |], (m (erase s)); try contradiction; auto. subst.
  specialize (K s'). destruct (h s'), (k (erase s')); try contradiction; auto. now destruct K.
Qed.
Lemma e_with_fuel {B A} (R : B -> A -> Prop) f g : (forall n, E R (f n) (g n)) -> E R (q_with_fuel f) (with_fuel g).
Proof. intros H s. exact (H _ s). Qed.
Lemma e_if {B A} (R : B -> A -> Prop) (b : bool) q m q' m' : E R q m -> E R q' m' -> E R (if b then q else q') (if b then m else m').
Proof. destruct b; auto. Qed.
(** Functions that only add to the diagnostics *)
Definition Frame {A} (m : PM A) : Prop := forall ts d,
  m (PState ts d) = match m (PState ts []) with
                    | POk a s => POk a (PState (ps_tokens s) (d ++ ps_diags s)) | PErr s => PErr (PState (ps_tokens s) (d ++ ps_diags s))
                    | PPanic => PPanic | PFuel => PFuel
                    end.
Lemma e_at {A} p (m : PM A) : Frame m -> E eq (qat p m) m.
Proof.
  intros H s. unfold qat, erase. rewrite (H (qs_tokens s) (List.map fst (qs_diags s))).
  destruct (m (PState (qs_tokens s) [])) as [a t|t| |]; cbn; auto; rewrite map_app, map_map; cbn; rewrite map_id; auto.
Qed.
Lemma f_ret {A} (a : A) : Frame (pret a). Proof. intros ts d. cbn. now rewrite app_nil_r. Qed.
Lemma f_ice {A} : Frame (@p_ice A). Proof. intros ts d. reflexivity. Qed.
Lemma f_pfail {A} e : Frame (@pfail A e). Proof. intros ts d. reflexivity. Qed.
Lemma f_report e : Frame (preport e). Proof. intros ts d. reflexivity. Qed.
Lemma f_bind {A B} (m : PM A) (f : A -> PM B) : Frame m -> (forall a, Frame (f a)) -> Frame (pbind m f).
Proof.
  intros H K ts d. unfold pbind. rewrite H. destruct (m (PState ts [])) as [a s|s| |]; auto. destruct s as [ts' d']. cbn [ps_tokens ps_diags].
  rewrite (K a ts' (d ++ d')), (K a ts' d'). destruct (f a (PState ts' [])) as [b t|t| |]; auto; cbn; now rewrite app_assoc.
Qed.
Lemma f_poll : Frame poll. Proof. intros [|t ts] d; cbn; now rewrite app_nil_r. Qed.
Lemma f_peek : Frame peek. Proof. intros ts d; cbn; now rewrite app_nil_r. Qed.
Lemma f_poll_if p : Frame (poll_if p).
Proof. apply f_bind; [apply f_peek|]. intros [t|]; [destruct (p t); [apply f_poll|]|]; apply f_ret. Qed.
Lemma f_poll_if_kind k : Frame (poll_if_kind k). Proof. apply f_poll_if. Qed.
Lemma f_expect_poll : Frame expect_poll.
Proof. apply f_bind; [apply f_poll|]. intros [t|]; [apply f_ret|apply f_pfail]. Qed.
Lemma f_has_next p : Frame (has_next p). Proof. apply f_bind; [apply f_peek|]. intro. apply f_ret. Qed.
Lemma f_skip : Frame skip_whitespace. Proof. apply f_bind; [apply f_poll_if|]. intro. apply f_ret. Qed.
Lemma f_name_id t : Frame (tok_name_id t). Proof. unfold tok_name_id. destruct (tk_kind t); auto using @f_ret, @f_ice. Qed.
Lemma f_lowercase t : Frame (tok_lowercase_name_id t). Proof. unfold tok_lowercase_name_id. destruct (is_kind _ _); auto using @f_ret, @f_ice. Qed.
Lemma f_number t : Frame (p_number t). Proof. unfold p_number. destruct (parse_number _); [apply f_ret|apply f_pfail]. Qed.
Lemma f_unescape t : Frame (p_unescape t).
Proof. unfold p_unescape. destruct (unescape_char _) as [[c [e|]]| |]; auto using @f_ret, @f_ice. apply f_bind; [apply f_report|]. intro. apply f_ret. Qed.
Lemma f_text_loop fuel : forall t, Frame (text_loop fuel t).
Proof. induction fuel as [|fuel IH]; intro t; [intros ts d; reflexivity|]. cbn [text_loop]. apply f_bind; [apply f_poll_if|]. intros [u|]; [apply IH|apply f_ret]. Qed.
Lemma f_text t : Frame (parse_text t).
Proof.
  unfold parse_text. destruct (token_text t); [|apply f_ice]. apply f_bind; [|intro; apply f_ret]. intros ts d. apply f_text_loop.
Qed.
Lemma f_serr e : Frame (serr e). Proof. apply f_report. Qed.
Lemma f_if {A} (b : bool) (m n : PM A) : Frame m -> Frame n -> Frame (if b then m else n). Proof. destruct b; auto. Qed.
Lemma f_check_param r s : Frame (check_param r s).
Proof.
  unfold check_param. destruct r as [[[name q i t d] k] u], s as [an us ao aon np sp nn sn]. cbv zeta.
  apply f_bind; [repeat apply f_if; solve [apply f_serr|apply f_ret]|].
  intro. cbn beta. destruct k, u; repeat first [apply f_ret | apply f_serr | apply f_bind; [|intro]].
Qed.

Create HintDb erase.
#[export] Hint Resolve e_serr e_report f_poll f_peek f_poll_if f_poll_if_kind f_expect_poll f_has_next f_skip f_name_id f_lowercase f_number f_unescape f_text f_check_param : erase.
Lemma e_poll : E eq q_poll poll. Proof. apply e_at, f_poll. Qed.
Lemma e_peek : E eq q_peek peek. Proof. apply e_at, f_peek. Qed.
Lemma e_poll_if p : E eq (q_poll_if p) (poll_if p). Proof. apply e_at, f_poll_if. Qed.
Lemma e_poll_if_kind k : E eq (q_poll_if_kind k) (poll_if_kind k). Proof. apply e_at, f_poll_if_kind. Qed.
Lemma e_has_next p : E eq (q_has_next p) (has_next p). Proof. apply e_at, f_has_next. Qed.
Lemma e_skip : E eq q_skip skip_whitespace. Proof. apply e_at, f_skip. Qed.
Lemma e_name_id t : E eq (q_name_id t) (tok_name_id t). Proof. apply e_at, f_name_id. Qed.
Lemma e_lowercase t : E eq (q_lowercase_name_id t) (tok_lowercase_name_id t). Proof. apply e_at, f_lowercase. Qed.
Lemma e_text t : E eq (q_text t) (parse_text t). Proof. apply e_at, f_text. Qed.
Lemma e_number t : E eq (q_number t) (p_number t). Proof. apply e_at, f_number. Qed.
Lemma e_unescape t : E eq (q_unescape t) (p_unescape t). Proof. apply e_at, f_unescape. Qed.
#[export] Hint Resolve e_poll e_peek e_poll_if e_poll_if_kind e_has_next e_skip e_name_id e_lowercase e_text e_number e_unescape : erase.
Lemma e_ret_eq {A} (a : A) : E eq (qret a) (pret a). Proof. now apply e_ret. Qed.
Lemma e_if_eq {A} (b : bool) (q q' : QM A) m m' : E eq q m -> E eq q' m' -> E eq (if b then q else q') (if b then m else m'). Proof. destruct b; auto. Qed.
#[export] Hint Resolve e_ret_eq e_if_eq : erase.
Ltac ek := solve [eauto 4 with erase nocore].
(** one step; results equal *)
Ltac e1 :=
  lazymatch goal with
  | |- forall _, _ => intro
  | |- _ = _ -> _ => intros ->
  | |- E _ (qret _) (pret _) => apply e_ret
  | |- E _ (qsfail _ _) (sfail _) => apply e_sfail
  | |- E _ q_ice p_ice => apply e_ice
  | |- E _ (qbind _ _) (pbind _ _) => eapply e_bind; [solve [ek]|cbn beta; lazymatch goal with |- forall _ _, Fst _ _ -> _ => let K := fresh in intros [? ?] ? K; unfold Fst in K; cbn [fst] in K; destruct K; cbn [fst snd] | |- _ => first [intros ? ? -> | intros [? ?] ? <-; cbn [fst snd] | intros ? ? ?] end]
  | |- E _ (if ?b then _ else _) (if ?b then _ else _) => apply e_if
  | |- E _ (match ?x with Some _ => _ | None => _ end) (match ?x with Some _ => _ | None => _ end) => destruct x; cbn [is_some]
  | |- E _ (match ?x with Some _ => _ | None => _ end) (if is_some ?x then _ else _) => destruct x; cbn [is_some]
  | |- Fst _ _ => reflexivity
  | |- _ = _ => reflexivity
  | |- _ => ek
  end.
Ltac es := repeat e1.

Lemma e_spread a b : E (fun x k => fst x = k /\ (a = true -> b = true -> (snd x = None <-> k = NoSpread))) (q_spread a b) (poll_if_spread a b).
Proof.
  unfold q_spread, poll_if_spread. e1. e1; [|apply e_ret; cbn; tauto].
  assert (K : forall q m, E (fun (x y : spread_kind) => x = y /\ (a = true -> b = true -> y <> NoSpread)) q m ->
    E (fun x k => fst x = k /\ (a = true -> b = true -> (snd x = None <-> k = NoSpread))) (do* k <- q; qret (k, Some (tk_start t))) m).
  { intros q m H s. specialize (H s). unfold qbind. destruct (q s), (m (erase s)); try contradiction; auto. destruct H as [[-> H] ->]. cbn. repeat split; try discriminate. intro. now destruct (H H0 H1). }
  apply K. destruct (is_kind Asterisk t), a, b; try (apply e_ret; split; [reflexivity|discriminate]); (eapply e_bind; [ek|intros; apply e_ret; split; [reflexivity|discriminate]]).
Qed.
Lemma e_expect_poll eof : E eq (q_expect_poll eof) expect_poll. Proof. apply e_at, f_expect_poll. Qed.
#[export] Hint Resolve e_expect_poll : erase.
Lemma e_expect_kind eof k : E eq (q_expect_kind eof k) (expect_poll_kind k).
Proof. unfold q_expect_kind, expect_poll_kind. e1. destruct a; [apply e_if|]; es. apply (@e_sfail token token). Qed.
#[export] Hint Resolve e_expect_kind : erase.
Lemma e_entity decode t : E eq (q_entity decode t)
  (let (c, e) := decode_entity decode (tk_text t) in match e with Some e => serr e | None => pret tt end;; pret c).
Proof. unfold q_entity. destruct (decode_entity _ _) as [c [e|]]; es. Qed.
Lemma e_group_type begin t tok : E eq (q_group_type begin t tok) (group_type t tok).
Proof. unfold q_group_type, group_type. es. Qed.
#[export] Hint Resolve e_group_type : erase.
Lemma e_groups begin fuel : forall t, E eq (q_groups begin fuel t) (parse_groups fuel t).
Proof. induction fuel as [|fuel IH]; intro t; [apply e_fuel|]. cbn [q_groups parse_groups]. es. Qed.
Lemma e_pair {A} (q : QM A) (m : PM A) (p : nat) : E eq q m -> E Fst (do* n <- q; qret (n, p)) m.
Proof. intros H s. specialize (H s). unfold qbind. destruct (q s), (m (erase s)); try contradiction; auto. Qed.
Lemma e_type eof : E Fst (q_type eof) parse_type.
Proof.
  unfold q_type, parse_type. e1. e1. eapply (e_bind eq); [destruct (base_type _); es|]. intros b t ->.
  apply (e_pair (q_with_fuel (fun fuel => q_groups (tk_start a0) fuel t)) (with_fuel (fun fuel => parse_groups fuel t))). apply e_with_fuel. intro. apply e_groups.
Qed.
#[export] Hint Resolve e_type : erase.
Lemma e_name_loop eof fuel : forall n, E eq (q_name_loop eof fuel n) (name_loop fuel n).
Proof. induction fuel as [|fuel IH]; intro n; [apply e_fuel|]. cbn [q_name_loop name_loop]. cbv zeta. es. Qed.
Lemma e_name eof t : E Fst (q_name eof t) (parse_name t).
Proof. unfold q_name, parse_name. e1. apply e_pair, e_with_fuel. intro. apply e_name_loop. Qed.
#[export] Hint Resolve e_name e_entity : erase.
Section Nodes.
  Variables (qn : token -> QM node) (pn : token -> PM node) (closer : token -> bool).
  Hypothesis HN : forall t, E eq (qn t) (pn t).
  Lemma opt_eq {A} (a b : option A) : Opt eq a b -> a = b. Proof. destruct a, b; cbn; congruence || contradiction. Qed.
  Lemma e_nodes_loop fuel : E eq (q_nodes_loop qn closer fuel) (nodes_loop pn closer fuel).
  Proof.
    induction fuel as [|fuel IH]; [apply e_fuel|]. cbn [q_nodes_loop nodes_loop]. e1. e1; [|es]. e1; [es|].
    eapply e_bind; [apply e_ok, HN|]. intros ? ? ->%opt_eq. eapply e_bind; [apply IH|]. intros ? ? ->. es.
  Qed.
  Lemma e_nodes_until : E eq (q_nodes_until qn closer) (parse_nodes_until pn closer).
  Proof. unfold q_nodes_until, parse_nodes_until. e1. eapply e_bind; [apply e_with_fuel; intro; apply e_nodes_loop|]. intros ? ? ->. es. Qed.
  Lemma e_ellipsis_loop fuel : E eq (q_ellipsis_loop qn fuel) (ellipsis_loop pn fuel).
  Proof.
    induction fuel as [|fuel IH]; [apply e_fuel|]. cbn [q_ellipsis_loop ellipsis_loop]. e1. e1; [|es].
    eapply e_bind; [apply e_ok, HN|]. intros ? ? ->%opt_eq. eapply e_bind; [apply IH|]. intros ? ? ->. es.
  Qed.
End Nodes.
Lemma e_separated {B A} (R : B -> A -> Prop) eof open q m sep close : E R q m ->
  E (fun x y => Forall2 R (fst x) (fst y) /\ snd x = snd y) (q_separated eof open q sep close) (parse_separated_until open m sep close).
Proof.
  intro H. apply e_with_fuel. intro n. generalize false. induction n as [|n IH]; intro b; [apply e_fuel|]. cbn [q_separated_loop separated_loop].
  e1. eapply (e_bind (Opt eq)).
  - destruct b; [apply e_ok; ek|]. intro s. pose proof (e_poll_if_kind close s) as K. destruct (q_poll_if_kind close s), (poll_if_kind close (erase s)); try contradiction; auto.
    destruct K as [-> ->]. split; [destruct a1; reflexivity|reflexivity].
  - intros x y ->%opt_eq. destruct y as [c|]; [apply e_ret; cbn; auto|]. eapply e_bind; [apply e_map_err; [exact H|]|].
    + unfold q_unmatched. es.
    + intros x y Hxy. e1. eapply (e_bind eq); [destruct (kind_eqb _ _); es|]. intros ? ? ->. eapply e_bind; [apply IH|]. cbn beta. intros [l t] [l' t'] [F Et]. cbn [fst snd] in *. subst.
      apply e_ret. cbn. auto.
Qed.
Lemma fst_map {A B} (l : list (A * B)) l' : Forall2 Fst l l' -> List.map fst l = l'.
Proof. induction 1 as [|? ? ? ? H F IH]; cbn; [reflexivity|]. now rewrite H, IH. Qed.
Lemma eq_map {A} (l l' : list A) : Forall2 eq l l' -> l = l'.
Proof. induction 1; congruence. Qed.
Definition part_end (x : template_part * nat * nat) : template_part * nat := fst x.
Lemma e_template_loop eof fuel : forall decode open k parts braces,
  E (fun x y => List.map fst (fst x) = fst y /\ snd x = snd y) (q_template_loop eof fuel decode open k parts braces) (template_loop fuel decode open k (List.map fst parts) braces).
Proof.
  induction fuel as [|fuel IH]; intros; [apply e_fuel|]. cbn [q_template_loop template_loop]. unfold q_unexpected. cbv zeta.
  eapply e_bind; [apply e_map_err; [ek|unfold q_unmatched; es]|]. intros ? tok ->.
  match goal with |- E _ (match _ with Name => ?l | _ => _ end) (match _ with Name => ?r | _ => _ end) => set (ql := l); set (pl := r) end.
  assert (L : E (fun x y => List.map fst (fst x) = fst y /\ snd x = snd y) ql pl).
  { unfold ql, pl. destruct parts as [|[[[s|c|x|] e] p] before]; cbn [List.map fst]; try solve [exact (IH decode open k (_ :: _) braces)].
    apply e_if; exact (IH decode open k (_ :: _) braces). }
  destruct (tk_kind tok) eqn:Ek; try exact L.
  all: try solve [exact (IH decode open k (_ :: _) braces) | e1; apply IH].
  all: lazymatch type of Ek with
  | _ = Quote _ _ => apply e_if; [|exact L]; apply e_ret; cbn [fst snd]; rewrite map_rev, !map_map; split; [f_equal; now apply map_ext|reflexivity]
  | _ = VarName => eapply e_bind; [apply e_ok, e_name|]; intros [[n p]|] [n'|] H; try contradiction; [|apply IH];
      unfold Opt, Fst in H; cbn in H; subst; exact (IH decode open k ((TPName n', 0, p) :: parts) braces)
  | _ = Escape => e1; exact (IH decode open k ((TPChar a, 0, 0) :: parts) braces)
  | _ = Entity => idtac
  | _ = RBrace => destruct braces; [e1; apply IH|]; destruct parts as [|[[[s|c|x|] e] p] before]; cbn [List.map fst]; first [exact (IH decode open k (_ :: _) braces) | apply IH | exact (IH decode open k [] braces)]
  | _ => idtac
  end.
  - intro s. pose proof (e_entity decode tok s) as H. unfold qbind, pbind in *. destruct (decode_entity decode (tk_text tok)) as [c e].
    destruct (q_entity decode tok s) as [c'|s'| |]; (destruct (match e with Some e => serr e | None => pret tt end (erase s)); cbn in H; try contradiction; auto).
    destruct H as [-> ->]. exact (IH decode open k ((TPChar c, 0, 0) :: parts) braces _).
Qed.
Lemma e_report_unmatched l : E eq (q_report_unmatched l) (report_unmatched l).
Proof. induction l; cbn; [es|]. unfold q_unmatched. es. Qed.
Lemma e_template_parts eof decode open k : E (fun x y => List.map fst (fst x) = y) (q_template_parts eof decode open k) (parse_template_parts decode open k).
Proof.
  unfold q_template_parts, parse_template_parts. eapply e_bind; [apply e_with_fuel; intro; exact (e_template_loop eof n decode open k [] [])|].
  intros [l b] [l' b'] [H Eb]. cbn [fst snd] in *. subst. eapply e_bind; [apply e_report_unmatched|]. intros. now apply e_ret.
Qed.
Lemma e_check_params rs : forall s, E eq (q_check_params rs s) (check_params (List.map fst rs) s).
Proof. induction rs as [|[r p] rs IH]; intro s; cbn [q_check_params check_params List.map fst]; [es|]. eapply e_bind; [apply e_at, f_check_param|]. intros ? ? ->. apply IH. Qed.
Lemma e_check_args l : forall a u, E eq (q_check_args l a u) (check_args (List.map fst l) a u).
Proof. induction l as [|[[n k e] p] l IH]; intros; cbn [q_check_args check_args List.map fst]; [es|]. apply e_if; [es|destruct k; es]. Qed.
Lemma e_check_attrs l : forall u, E eq (q_check_attrs l u) (check_attrs (List.map fst l) u).
Proof. induction l as [|[[n k e|e] p] l IH]; intros; cbn [q_check_attrs check_attrs List.map fst]; es. Qed.
Lemma e_named_args l : E eq (q_named_args l) (named_args (List.map fst l)).
Proof. induction l as [|[[n k e] p] l IH]; cbn [q_named_args named_args List.map fst]; [es|]. destruct k; es. Qed.
Lemma e_spread_index l : forall i o, E eq (q_spread_index l i o) (spread_index (List.map fst l) i o).
Proof. induction l as [|[[x [|]] p] l IH]; intros; cbn [q_spread_index spread_index List.map fst]; es. Qed.
Lemma e_check_html l : E eq (q_check_html l) (check_html_patterns (List.map fst (List.map fst l))).
Proof. induction l as [|[[x b] p] l IH]; intros; cbn [q_check_html check_html_patterns List.map fst]; es. Qed.
Lemma e_dict_parts l : forall attrs spread, E (fun x y => fst x = fst y /\ fst (snd x) = snd y) (q_dict_parts l attrs spread) (dict_parts (List.map fst l) attrs (fst spread)).
Proof.
  induction l as [|[[[n|] x] p] l IH]; intros attrs spread; cbn [q_dict_parts dict_parts List.map fst]; [apply e_ret; cbn; auto| |].
  - apply e_if; e1; apply IH.
  - e1. apply (IH attrs (Some x, p)).
Qed.
Lemma e_make_dict l start b : E Fst (q_make_dict l start b) (make_dict_pattern (List.map fst l) b).
Proof.
  unfold q_make_dict, make_dict_pattern. eapply e_bind; [apply e_dict_parts|]. intros [attrs [sp p]] [attrs' sp'] [H K]. cbn [fst snd] in *. subst.
  destruct attrs', sp'; try apply e_if; now apply e_ret.
Qed.
Lemma e_template_regex l : forall re vars, E eq (q_template_regex l re vars) (template_regex (List.map fst l) re vars).
Proof. induction l as [|[[s|c|[n|n b a|n b i]|] p] l IH]; intros; cbn [q_template_regex template_regex List.map fst]; es. Qed.
#[export] Hint Resolve e_template_parts e_check_params e_check_args e_check_attrs e_named_args e_spread_index e_check_html e_make_dict e_template_regex : erase.
Lemma e_name_pattern eof t : E Fst (q_name_pattern eof t) (parse_name_pattern t).
Proof. unfold q_name_pattern, parse_name_pattern. e1. destruct n; es. Qed.
#[export] Hint Resolve e_name_pattern : erase.
Lemma e_typed eof x : E Fst (q_typed_pattern eof x) (parse_optional_typed_pattern (fst x)).
Proof.
  unfold q_typed_pattern, parse_optional_typed_pattern. e1. e1. destruct a0; [|es]. e1. e1. eapply (e_bind Fst).
  - e1; es.
  - intros [q p] q' H. unfold Fst in H. cbn in H. subst. apply e_ret. destruct x as [[] ?]; reflexivity.
Qed.
#[export] Hint Resolve e_typed : erase.

Section Step.
  Variables (eof : nat) (src : str) (decode : str -> str) (regex_ok : str -> bool) (Q : qparsers) (R : parsers).
  Hypothesis HE : forall t, E Fst (qr_expr_tok Q t) (r_expr_tok R t).
  Hypothesis HP : E Fst (qr_pattern Q) (r_pattern R).
  Hypothesis HN : forall t, E eq (qr_node Q t) (r_node R t).
  Lemma e_expr : E Fst (q_expr eof Q) (parse_expr R).
  Proof. unfold q_expr, parse_expr. es. Qed.
  Hint Resolve e_expr : erase.
  Lemma e_ellipsis t : E Fst (q_ellipsis_group Q t) (parse_ellipsis_group R).
  Proof. unfold q_ellipsis_group, parse_ellipsis_group. eapply e_bind; [apply e_with_fuel; intro; apply e_ellipsis_loop, HN|]. intros ? ? ->. es. Qed.
  Hint Resolve e_ellipsis : erase.
  Lemma e_expr_or_ellipsis : E Fst (q_expr_or_ellipsis eof Q) (parse_expr_or_ellipsis R).
  Proof. unfold q_expr_or_ellipsis, parse_expr_or_ellipsis. es. Qed.
  Lemma e_group open : E Fst (q_group Q open) (parse_group R open).
  Proof. unfold q_group, parse_group, q_unmatched. eapply e_bind; [apply e_nodes_until, HN|]. intros ? ? ->. es. Qed.
  Hint Resolve e_expr_or_ellipsis e_group : erase.
  Lemma e_arg : E Fst (q_arg eof Q) (parse_arg R).
  Proof.
    unfold q_arg, parse_arg. e1. eapply e_bind; [apply e_spread|]. cbn beta. intros [k o] k' [H K]. cbn [fst snd] in *. subst. specialize (K eq_refl eq_refl). e1. e1. e1; [|es].
    cbv zeta. e1. e1. e1; [|es]. eapply (e_bind eq); [|intros ? ? ->; es]. destruct o as [p|], k'; es; exfalso; try (pose proof (proj2 K eq_refl); discriminate); pose proof (proj1 K eq_refl); discriminate.
  Qed.
  Lemma e_args : E (fun x y => List.map fst x = y) (q_args eof Q) (parse_args R).
  Proof.
    unfold q_args, parse_args. e1. e1. e1; [|es]. eapply e_bind; [apply e_separated, e_arg|]. intros [l c] [l' c'] [H K]. cbn [fst snd] in *. apply fst_map in H. subst.
    e1. now apply e_ret.
  Qed.
  Hint Resolve e_arg e_args : erase.
  Lemma e_list_item : E eq (q_list_item eof Q) (parse_list_item R).
  Proof. unfold q_list_item, parse_list_item. e1. destruct a as [x k v]. eapply (e_bind eq); [destruct k; es|]. es. Qed.
  Lemma e_list open : E Fst (q_list eof Q open) (parse_list R open).
  Proof.
    unfold q_list, parse_list. eapply e_bind; [apply e_separated, e_list_item|]. intros [l c] [l' c'] [H K]. cbn [fst snd] in *. apply eq_map in H. subst. es.
  Qed.
  Lemma e_param : E (fun x y => fst (fst x) = y) (q_param eof Q) (parse_param R).
  Proof.
    unfold q_param, parse_param. e1. eapply e_bind; [apply e_spread|]. cbn beta. intros [k o] k' [H _]. cbn [fst snd] in *. subst. e1. e1. e1. cbv zeta. e1. e1. e1. e1.
    eapply (e_bind eq).
    { e1; [|es]. e1. e1. eapply e_bind; [apply e_ok, e_type|]. intros [[t p]|] [t'|] H; try contradiction; [unfold Opt, Fst in H; cbn in H; subst|]; es. }
    intros ? [i t] ->. e1. e1. eapply (e_bind Fst); [e1; es|]. intros [d p] d' H. unfold Fst in H. cbn in H. subst. cbn [fst snd]. e1. now apply e_ret.
  Qed.
  Hint Resolve e_param : erase.
  Lemma e_signature : E eq (q_signature eof Q) (parse_signature R).
  Proof.
    unfold q_signature, parse_signature. e1. e1. eapply (e_bind eq).
    - e1; [|es]. eapply e_bind; [apply e_separated, e_param|]. intros [l c] [l' c'] [H K]. cbn [fst snd] in *.
      assert (M : List.map fst (List.map fst l) = l') by (clear -H; induction H as [|? ? ? ? H F IH]; cbn; [reflexivity|]; now rewrite H, IH). subst.
      eapply e_bind; [apply e_check_params|]. intros ? ? ->. apply e_ret. now rewrite !map_map.
    - intros ? [ps s] ->. e1. e1. e1; [es|]. eapply e_bind; [apply e_param|]. intros [[[[[n q i t d] k] u] p] ds] y H. cbn [fst] in H. subst.
      eapply (e_bind eq); [destruct k; es|]. es.
  Qed.
  Hint Resolve e_signature : erase.
  Lemma e_func_def t b : E Fst (q_func_def eof Q t b) (parse_func_def R b).
  Proof. unfold q_func_def, parse_func_def. e1. e1. eapply (e_bind eq); [e1; es|]. intros ? ? ->. es. Qed.
  Lemma e_func_call t : E Fst (q_func_call eof src Q t) (parse_func_call src R t).
  Proof. unfold q_func_call, parse_func_call. e1. eapply e_bind; [apply e_args|]. intros l ? <-. es. Qed.
  Lemma e_some_named t : E eq (q_some_named_args eof Q t) (parse_some_named_args R).
  Proof. unfold q_some_named_args, parse_some_named_args. eapply e_bind; [apply e_args|]. intros [|[a p] l] ? <-; [apply e_sfail|]. apply (e_named_args ((a, p) :: l)). Qed.
  Hint Resolve e_func_def e_func_call e_some_named : erase.
  Lemma e_let t b : E Fst (q_let_in eof Q t b) (parse_let_in R t b).
  Proof. unfold q_let_in, parse_let_in. es. Qed.
  Hint Resolve e_let : erase.
  Lemma e_export t : E eq (q_export eof Q t) (parse_export R).
  Proof. unfold q_export, parse_export. es. Qed.
  Hint Resolve e_export : erase.
  Lemma e_tag_attr : E Fst (q_tag_attribute eof Q) (parse_tag_attribute R).
  Proof.
    unfold q_tag_attribute, parse_tag_attribute. e1. eapply e_bind; [apply e_spread|]. cbn beta. intros [k o] k' [H _]. cbn [fst snd] in *. subst. destruct k'; [|es..].
    e1. e1. e1. e1. e1. e1. e1. e1; [es|]. destruct a3; cbn [is_some]; es.
  Qed.
  Lemma e_tag t : E Fst (q_tag eof Q t) (parse_tag R t).
  Proof.
    unfold q_tag, parse_tag. e1. eapply (e_bind eq).
    - destruct (tk_kind a); es.
    - intros ? [name id] ->. eapply e_bind; [apply e_separated, e_tag_attr|]. intros [l c] [l' c'] [H K]. cbn [fst snd] in *. apply fst_map in H. subst. e1. e1; [es|].
      eapply e_bind; [apply e_nodes_until, HN|]. intros ? [ch [cl|]] ->; es.
  Qed.
  Hint Resolve e_tag : erase.
  Lemma e_positional : E Fst (q_positional_pattern Q) (parse_positional_match_pattern R).
  Proof.
    unfold q_positional_pattern, parse_positional_match_pattern. e1. e1. e1; [es|]. eapply e_bind; [apply e_spread|]. cbn beta. intros [k o] k' [H _]. cbn [fst snd] in *. subst.
    eapply e_bind; [apply HP|]. intros [x p] ? <-. es.
  Qed.
  Lemma e_named_pattern b : E Fst (q_named_pattern eof Q b) (parse_named_match_pattern R b).
  Proof.
    unfold q_named_pattern, parse_named_match_pattern. e1. e1. e1; [es|]. eapply e_bind; [apply e_spread|]. cbn beta. intros [k o] k' [H _]. cbn [fst snd] in *. subst.
    destruct k'; [|eapply e_bind; [apply HP|]; intros [x p] ? <-; es..].
    e1. e1. e1. eapply (e_bind eq).
    - destruct b; [ek|]. intro s. pose proof (e_ok eq _ _ (e_expect_kind eof Equals) s) as K.
      destruct (q_ok (q_expect_kind eof Equals) s), (p_ok (expect_poll_kind Equals) (erase s)); try contradiction; auto. destruct K as [K ->]. split; [now apply opt_eq|reflexivity].
    - intros ? ? ->. e1. eapply (e_bind Fst); [e1; [apply HP|es]|]. intros [x p] ? <-. es.
  Qed.
  Lemma e_seq_pattern open sep close : E Fst (q_seq_pattern eof Q open sep close) (parse_seq_pattern R open sep close).
  Proof.
    unfold q_seq_pattern, parse_seq_pattern. eapply e_bind; [apply e_separated, e_positional|]. intros [l c] [l' c'] [H K]. cbn [fst snd] in *. apply fst_map in H. subst. cbv zeta.
    e1. eapply (e_bind eq); [e1; [es|apply e_check_html]|]. intros ? ? ->. apply e_ret. unfold Fst. cbn [fst]. now rewrite map_map.
  Qed.
  Lemma e_dict_pattern t : E Fst (q_dict_pattern eof Q t) (parse_dict_pattern R t).
  Proof.
    unfold q_dict_pattern, parse_dict_pattern. eapply e_bind; [apply e_separated, e_named_pattern|]. intros [l c] [l' c'] [H K]. cbn [fst snd] in *. apply fst_map in H. subst. apply e_make_dict.
  Qed.
  Lemma e_tag_pattern t : E Fst (q_tag_pattern eof Q t) (parse_tag_pattern R t).
  Proof.
    unfold q_tag_pattern, parse_tag_pattern, q_unexpected. e1. eapply (e_bind eq).
    - destruct (tk_kind a); es.
    - intros ? [name id] ->. eapply e_bind; [apply e_separated, e_named_pattern|]. intros [l c] [l' c'] [H K]. cbn [fst snd] in *. apply fst_map in H. subst.
      e1. e1. eapply (e_bind eq).
      + e1; [es|]. e1. e1; [es|]. es.
      + intros ? [content close] ->. es.
  Qed.
  Lemma e_template_pattern open k : E Fst (q_template_pattern eof decode regex_ok open k) (parse_template_pattern decode regex_ok open k).
  Proof.
    unfold q_template_pattern, parse_template_pattern. eapply e_bind; [apply e_template_parts|]. intros [l p] ? <-. cbn [fst snd]. cbv zeta.
    replace (forallb part_is_literal (List.map fst l)) with (forallb (fun x => part_is_literal (fst x)) l) by (clear; induction l; cbn; congruence). e1; [es|].
    e1. e1; es.
  Qed.
  Hint Resolve e_seq_pattern e_dict_pattern e_tag_pattern e_template_pattern : erase.
  Lemma e_primary : E Fst (q_primary_pattern eof decode regex_ok Q) (parse_primary_match_pattern decode regex_ok R).
  Proof.
    unfold q_primary_pattern, parse_primary_match_pattern, q_unexpected. e1. e1. destruct (tk_kind a0); es.
    all: try exact (e_typed eof (_, _)).
    all: eapply e_bind; [apply HE|]; intros [x p] ? <-; es.
  Qed.
  Lemma e_and_loop fuel : forall x, E Fst (q_and_loop eof decode regex_ok Q fuel x) (and_loop decode regex_ok R fuel (fst x)).
  Proof.
    induction fuel as [|fuel IH]; intro x; [apply e_fuel|]. cbn [q_and_loop and_loop]. e1. e1. e1; [|es]. eapply e_bind; [apply e_primary|]. intros [y p] ? <-. cbn [fst].
    exact (IH (PAnd (fst x) y, snd x)).
  Qed.
  Lemma e_and : E Fst (q_and_pattern eof decode regex_ok Q) (parse_and_match_pattern decode regex_ok R).
  Proof. unfold q_and_pattern, parse_and_match_pattern. eapply e_bind; [apply e_primary|]. intros [x p] ? <-. apply e_with_fuel. intro. apply e_and_loop. Qed.
  Lemma e_or_loop fuel : forall x, E Fst (q_or_loop eof decode regex_ok Q fuel x) (or_loop decode regex_ok R fuel (fst x)).
  Proof.
    induction fuel as [|fuel IH]; intro x; [apply e_fuel|]. cbn [q_or_loop or_loop]. e1. e1. e1; [|es]. eapply e_bind; [apply e_and|]. intros [y p] ? <-. cbn [fst].
    exact (IH (POr (fst x) y _, snd x)).
  Qed.
  Lemma e_pattern : E Fst (q_match_pattern eof decode regex_ok Q) (parse_match_pattern decode regex_ok R).
  Proof. unfold q_match_pattern, parse_match_pattern. eapply e_bind; [apply e_and|]. intros [x p] ? <-. apply e_with_fuel. intro. apply e_or_loop. Qed.
  Lemma e_match t : E Fst (q_match eof Q t) (parse_match R).
  Proof.
    unfold q_match, parse_match. e1. e1. e1. eapply e_bind; [apply (e_separated eq)|].
    - unfold q_match_branch, parse_match_branch. eapply e_bind; [apply HP|]. intros [x p] ? <-. es.
    - intros [l c] [l' c'] [H K]. cbn [fst snd] in *. apply eq_map in H. subst. es.
  Qed.
  Hint Resolve e_match e_list : erase.
  Lemma e_expr_tok t : E Fst (q_expr_tok eof src decode Q t) (parse_expr_tok src decode R t).
  Proof.
    unfold q_expr_tok, parse_expr_tok. destruct (tk_kind t) eqn:Ek; try match goal with k : keyword |- _ => destruct k end; es.
  Qed.
  Hint Resolve e_expr_tok : erase.
  Lemma e_node t : E eq (q_node eof src decode Q t) (parse_node src decode R t).
  Proof.
    unfold q_node, parse_node. destruct (tk_kind t) eqn:Ek; try match goal with k : keyword |- _ => destruct k end; es.
    intro s. pose proof (e_entity decode t s) as H. unfold qbind, pbind in *. destruct (decode_entity decode (tk_text t)) as [c e].
    destruct (q_entity decode t s) as [c'|s'| |]; (destruct (match e with Some e => serr e | None => pret tt end (erase s)); cbn in H |- *; try contradiction; auto).
    destruct H as [-> ->]. auto.
  Qed.
End Step.
Lemma parsers_erase eof src decode regex_ok n : let Q := qparsers_n eof src decode regex_ok n in let R := parsers_n src decode regex_ok n in
  (forall t, E Fst (qr_expr_tok Q t) (r_expr_tok R t)) /\ E Fst (qr_pattern Q) (r_pattern R) /\ (forall t, E eq (qr_node Q t) (r_node R t)).
Proof.
  induction n as [|n (A & B & C)]; cbv zeta in *; cbn [parsers_n qparsers_n].
  - repeat split; intros; apply e_fuel.
  - repeat split; cbn [parser_step q_step r_expr_tok r_pattern r_node qr_expr_tok qr_pattern qr_node].
    + intro t. now apply e_expr_tok.
    + now apply e_pattern.
    + intro t. now apply e_node.
Qed.
Lemma root_erase eof src decode regex_ok : E eq (q_root eof src decode regex_ok) (parse_root src decode regex_ok).
Proof.
  unfold q_root, parse_root. apply e_with_fuel. intro n. eapply e_bind; [apply e_nodes_until; apply parsers_erase|]. intros ? ? ->. es.
Qed.
Lemma parse_erase decode regex_ok src text :
  parse decode regex_ok src text = obind (parse_pos decode regex_ok src text) (fun r => Ret (fst r, List.map fst (snd r))).
Proof.
  unfold parse, parse_pos. destruct (tokenize text true) as [[toks errs]| |]; try reflexivity. cbn [obind fst snd].
  pose proof (root_erase (blen text) src decode regex_ok (QState toks (List.map (fun e => (SyntaxErr (fst e), fst (snd e))) errs))) as H.
  replace (erase _) with (PState toks (List.map (fun e => SyntaxErr (fst e)) errs)) in H by (unfold erase; cbn [qs_tokens qs_diags]; rewrite map_map; reflexivity).
  destruct (q_root _ _ _ _ _) as [ns s|s| |], (parse_root _ _ _ _); try contradiction; try reflexivity; cbn [obind fst snd].
  - destruct H as [-> ->]. reflexivity.
  - subst. reflexivity.
Qed.
