(** Induction over syntax trees. *)
From Verif Require Import Base M_Names M_Types M_Ast.

Definition OptP {A} (P : A -> Prop) (o : option A) : Prop := match o with Some a => P a | None => True end.

Section Ind.
  Variables (Pe : expr -> Prop) (Pa : arg -> Prop) (Pd : func_def -> Prop) (Ps : signature -> Prop) (Pp : param -> Prop)
    (Pl : let_in -> Prop) (Pt : tag_attr -> Prop) (Pm : pattern -> Prop) (Pn : node -> Prop) (Px : export -> Prop).
  Hypothesis He_unit : Pe EUnit.
  Hypothesis He_bool : forall b, Pe (EBool b).
  Hypothesis He_int : forall i, Pe (EInt i).
  Hypothesis He_bare : forall s, Pe (EBareString s).
  Hypothesis He_verb : forall s, Pe (EVerbatim s).
  Hypothesis He_call : forall src f l c, Forall Pa l -> Pe c -> Pe (EFuncCall src f l c).
  Hypothesis He_def : forall d, Pd d -> Pe (EFuncDef d).
  Hypothesis He_let : forall l, Pl l -> Pe (ELetIn l).
  Hypothesis He_match : forall e bs, Pe e -> Forall (fun b => Pm (fst b) /\ Pe (snd b)) bs -> Pe (EMatch e bs).
  Hypothesis He_group : forall ns, Forall Pn ns -> Pe (EGroup ns).
  Hypothesis He_list : forall l, Forall (fun x => Pe (fst x)) l -> Pe (EList l).
  Hypothesis He_template : forall ps, Pe (ETemplate ps).
  Hypothesis He_tag : forall n l ns, Forall Pt l -> Forall Pn ns -> Pe (ETag n l ns).
  Hypothesis He_name : forall n, Pe (EName n).
  Hypothesis Ha : forall n k e, Pe e -> Pa (Arg n k e).
  Hypothesis Hd : forall n s e, Ps s -> Pe e -> Pd (FuncDef n s e).
  Hypothesis Hs : forall ps a b c d e, Forall Pp ps -> Ps (Signature ps a b c d e).
  Hypothesis Hp : forall n q i t d, OptP Pe d -> Pp (Param n q i t d).
  Hypothesis Hl : forall i vs e, Forall (fun x => Pe (snd x)) vs -> Pe e -> Pl (LetIn i vs e).
  Hypothesis Ht_attr : forall n q v, OptP Pe v -> Pt (TAttr n q v).
  Hypothesis Ht_spread : forall e, Pe e -> Pt (TSpread e).
  Hypothesis Hm_ignore : Pm PIgnore.
  Hypothesis Hm_none : Pm PLiteralNone.
  Hypothesis Hm_lname : forall n, Pm (PLiteralName n).
  Hypothesis Hm_var : forall n, Pm (PVarName n).
  Hypothesis Hm_equals : forall e, Pe e -> Pm (PEquals e).
  Hypothesis Hm_and : forall p q, Pm p -> Pm q -> Pm (PAnd p q).
  Hypothesis Hm_or : forall p q l, Pm p -> Pm q -> Pm (POr p q l).
  Hypothesis Hm_regex : forall r l, Pm (PRegex r l).
  Hypothesis Hm_typed : forall t, Pm (PTyped t).
  Hypothesis Hm_typeof : forall n, Pm (PTypeOf n).
  Hypothesis Hm_list : forall ps, Forall Pm ps -> Pm (PExactList ps).
  Hypothesis Hm_slist : forall ps i, Forall Pm ps -> Pm (PSpreadList ps i).
  Hypothesis Hm_dict : forall l r, Forall (fun x => Pm (snd x)) l -> OptP Pm r -> Pm (PDict l r).
  Hypothesis Hm_tag : forall p q r, Pm p -> Pm q -> Pm r -> Pm (PTag p q r).
  Hypothesis Hm_html : forall ps, Forall Pm ps -> Pm (PExactHtml ps).
  Hypothesis Hm_shtml : forall ps i, Forall Pm ps -> Pm (PSpreadHtml ps i).
  Hypothesis Hn_export : forall e, Px e -> Pn (AExport e).
  Hypothesis Hn_expr : forall e, Pe e -> Pn (AExpr e).
  Hypothesis Hn_def : forall d, Pd d -> Pn (AFuncDef d).
  Hypothesis Hn_fence : forall src t m, Pn (ACodeFence src t m).
  Hypothesis Hn_text : forall s, Pn (AText s).
  Hypothesis Hn_char : forall c, Pn (AChar c).
  Hypothesis Hn_ws : Pn AWhitespace.
  Hypothesis Hn_break : Pn AParagraphBreak.
  Hypothesis Hx_names : forall vs, Forall (fun x => Pe (snd x)) vs -> Px (ExNames vs).
  Hypothesis Hx_let : forall l, Pl l -> Px (ExLetIn l).
  Hypothesis Hx_def : forall d, Pd d -> Px (ExFuncDef d).

  Fixpoint expr_all (e : expr) : Pe e
  with arg_all (a : arg) : Pa a
  with def_all (d : func_def) : Pd d
  with sig_all (s : signature) : Ps s
  with param_all (p : param) : Pp p
  with let_all (l : let_in) : Pl l
  with attr_all (t : tag_attr) : Pt t
  with pattern_all (p : pattern) : Pm p
  with node_all (n : node) : Pn n
  with export_all (x : export) : Px x.
  Proof.
    - destruct e as [|b|i|s|s|src f l c|d|l|e bs|ns|l|ps|n l ns|n].
      + exact He_unit. + apply He_bool. + apply He_int. + apply He_bare. + apply He_verb.
      + apply He_call; [|exact (expr_all c)]. induction l as [|a l IH]; constructor; [exact (arg_all a)|exact IH].
      + exact (He_def d (def_all d)).
      + exact (He_let l (let_all l)).
      + apply He_match; [exact (expr_all e)|]. induction bs as [|[p x] bs IH]; constructor; [exact (conj (pattern_all p) (expr_all x))|exact IH].
      + apply He_group. induction ns as [|a l IH]; constructor; [exact (node_all a)|exact IH].
      + apply He_list. induction l as [|[x b] l IH]; constructor; [exact (expr_all x)|exact IH].
      + apply He_template.
      + apply He_tag; [induction l as [|a l IH]; constructor; [exact (attr_all a)|exact IH]|induction ns as [|a ns IH]; constructor; [exact (node_all a)|exact IH]].
      + apply He_name.
    - destruct a as [n k e]. exact (Ha n k e (expr_all e)).
    - destruct d as [n s e]. exact (Hd n s e (sig_all s) (expr_all e)).
    - destruct s as [ps]. apply Hs. induction ps as [|a l IH]; constructor; [exact (param_all a)|exact IH].
    - destruct p as [n q i t [d|]]; apply Hp; [exact (expr_all d)|exact I].
    - destruct l as [i vs e]. apply Hl; [|exact (expr_all e)]. induction vs as [|[n x] vs IH]; constructor; [exact (expr_all x)|exact IH].
    - destruct t as [n q [v|]|e]; [apply Ht_attr; exact (expr_all v)|apply Ht_attr; exact I|exact (Ht_spread e (expr_all e))].
    - destruct p as [| |n|n|e|p q|p q l|r l|t|n|ps|ps i|l r|p q r|ps|ps i].
      + exact Hm_ignore. + exact Hm_none. + apply Hm_lname. + apply Hm_var.
      + exact (Hm_equals e (expr_all e)).
      + exact (Hm_and p q (pattern_all p) (pattern_all q)).
      + exact (Hm_or p q l (pattern_all p) (pattern_all q)).
      + apply Hm_regex. + apply Hm_typed. + apply Hm_typeof.
      + apply Hm_list. induction ps as [|a l IH]; constructor; [exact (pattern_all a)|exact IH].
      + apply Hm_slist. induction ps as [|a l IH]; constructor; [exact (pattern_all a)|exact IH].
      + apply Hm_dict; [induction l as [|[n p] l IH]; constructor; [exact (pattern_all p)|exact IH]|]. destruct r as [r|]; [exact (pattern_all r)|exact I].
      + exact (Hm_tag p q r (pattern_all p) (pattern_all q) (pattern_all r)).
      + apply Hm_html. induction ps as [|a l IH]; constructor; [exact (pattern_all a)|exact IH].
      + apply Hm_shtml. induction ps as [|a l IH]; constructor; [exact (pattern_all a)|exact IH].
    - destruct n as [x|e|d|src t m|s|c| |].
      + exact (Hn_export x (export_all x)). + exact (Hn_expr e (expr_all e)). + exact (Hn_def d (def_all d)).
      + apply Hn_fence. + apply Hn_text. + apply Hn_char. + exact Hn_ws. + exact Hn_break.
    - destruct x as [vs|l|d]; [|exact (Hx_let l (let_all l))|exact (Hx_def d (def_all d))].
      apply Hx_names. induction vs as [|[n x] vs IH]; constructor; [exact (expr_all x)|exact IH].
  Qed.
  Lemma ast_all : (forall e, Pe e) /\ (forall ns, Forall Pn ns).
  Proof. split; [exact expr_all|]. intro ns. apply Forall_forall. intros n _. apply node_all. Qed.
End Ind.
