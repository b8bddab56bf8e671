(** Induction over patterns, and the loops inside [bind_pattern] as functions of their own. *)
From Verif Require Import Base M_Names M_Html M_Types M_Token M_Diag M_Ast M_Value M_State M_Matcher.

Section Ind.
  Variable P : pattern -> Prop.
  Hypothesis H1 : P PIgnore.
  Hypothesis H2 : P PLiteralNone.
  Hypothesis H3 : forall n, P (PLiteralName n).
  Hypothesis H4 : forall n, P (PVarName n).
  Hypothesis H5 : forall e, P (PEquals e).
  Hypothesis H6 : forall p q, P p -> P q -> P (PAnd p q).
  Hypothesis H7 : forall p q ns, P p -> P q -> P (POr p q ns).
  Hypothesis H8 : forall re ns, P (PRegex re ns).
  Hypothesis H9 : forall t, P (PTyped t).
  Hypothesis H10 : forall n, P (PTypeOf n).
  Hypothesis H11 : forall ps, Forall P ps -> P (PExactList ps).
  Hypothesis H12 : forall ps i, Forall P ps -> P (PSpreadList ps i).
  Hypothesis H13 : forall attrs r, Forall (fun kv => P (snd kv)) attrs -> (forall p, r = Some p -> P p) -> P (PDict attrs r).
  Hypothesis H14 : forall a b c, P a -> P b -> P c -> P (PTag a b c).
  Hypothesis H15 : forall ps, Forall P ps -> P (PExactHtml ps).
  Hypothesis H16 : forall ps i, Forall P ps -> P (PSpreadHtml ps i).
  Fixpoint pattern_ind' (p : pattern) : P p :=
    let all := (fix all ps : Forall P ps := match ps with
                                            | [] => Forall_nil _
                                            | p :: ps => Forall_cons _ (pattern_ind' p) (all ps)
                                            end) in
    match p with
    | PIgnore => H1
    | PLiteralNone => H2
    | PLiteralName n => H3 n
    | PVarName n => H4 n
    | PEquals e => H5 e
    | PAnd p q => H6 p q (pattern_ind' p) (pattern_ind' q)
    | POr p q ns => H7 p q ns (pattern_ind' p) (pattern_ind' q)
    | PRegex re ns => H8 re ns
    | PTyped t => H9 t
    | PTypeOf n => H10 n
    | PExactList ps => H11 ps (all ps)
    | PSpreadList ps i => H12 ps i (all ps)
    | PDict attrs r =>
      H13 attrs r
        ((fix go l : Forall (fun kv => P (snd kv)) l := match l with
                                                         | [] => Forall_nil _
                                                         | kv :: l => Forall_cons kv (pattern_ind' (snd kv)) (go l)
                                                         end) attrs)
        match r with
        | None => fun p e => match e with eq_refl => I end
        | Some q => fun p e => match e in _ = x return match x with Some p => P p | None => True end with eq_refl => pattern_ind' q end
        end
    | PTag a b c => H14 a b c (pattern_ind' a) (pattern_ind' b) (pattern_ind' c)
    | PExactHtml ps => H15 ps (all ps)
    | PSpreadHtml ps i => H16 ps i (all ps)
    end.
End Ind.

Section Loops.
  Variable bp : pattern -> value -> EM bool.
  Fixpoint bind_all (ps : list pattern) (vs : list value) : EM bool :=
    match ps, vs with
    | p :: ps, v :: vs => and_then (bp p v) (bind_all ps vs)
    | _, _ => ret true
    end.
  Section Spread.
    Variables (A : Type) (one : A -> value) (mk : list A -> value).
    Fixpoint bind_spread (ps : list pattern) (i : nat) (vs : list A) : EM bool :=
      match ps with
      | [] => crash FPattern
      | p :: ps =>
        match i with
        | 0 =>
          let mid := length vs - length ps in
          and_then (bp p (mk (firstn mid vs))) (bind_all ps (List.map one (skipn mid vs)))
        | S i =>
          match vs with
          | v :: vs => and_then (bp p (one v)) (bind_spread ps i vs)
          | [] => crash FPattern
          end
        end
      end.
  End Spread.
  Variable vs : nmap value.
  Fixpoint bind_attrs (attrs : list (str * pattern)) : EM bool :=
    match attrs with
    | [] => ret true
    | (n, p) :: attrs =>
      match ngetm vs n with
      | None => ret false
      | Some v => and_then (bp p v) (bind_attrs attrs)
      end
    end.
End Loops.

Section Eqs.
  Variable eval : expr -> ty -> EM value.
  Variable captures : str -> str -> option (list (option str)).
  Notation bp := (bind_pattern eval captures).
  Lemma bp_exact_list ps v :
    bp (PExactList ps) v = match v with
                           | VList vs => if length ps =? length vs then bind_all bp ps vs else ret false
                           | _ => ret false
                           end.
  Proof. reflexivity. Qed.
  Lemma bp_spread_list ps i v :
    bp (PSpreadList ps i) v =
    match v with
    | VList vs => if length vs + 1 <? length ps then ret false else bind_spread bp value (fun v => v) VList ps i vs
    | _ => ret false
    end.
  Proof. reflexivity. Qed.
  Lemma bp_exact_html ps v :
    bp (PExactHtml ps) v =
    match to_html v with
    | Some h => if length (html_nodes h) =? length ps then bind_all bp ps (List.map of_html (html_nodes h)) else ret false
    | None => ret false
    end.
  Proof. reflexivity. Qed.
  Lemma bp_spread_html ps i v :
    bp (PSpreadHtml ps i) v =
    match to_html v with
    | Some h =>
      if length (html_nodes h) + 1 <? length ps then ret false
      else bind_spread bp html of_html (fun hs => of_html (from_iter hs)) ps i (html_nodes h)
    | None => ret false
    end.
  Proof. reflexivity. Qed.
  Lemma bp_dict attrs r v :
    bp (PDict attrs r) v =
    match v with
    | VDict vs =>
      if match r with None => negb (length vs =? length attrs) | Some _ => false end then ret false
      else and_then (bind_attrs bp vs attrs)
             match r with
             | None | Some PIgnore => ret true
             | Some p => bp p (VDict (List.filter (fun kv => negb (nhas attrs (fst kv))) vs))
             end
    | _ => ret false
    end.
  Proof. reflexivity. Qed.
End Eqs.
