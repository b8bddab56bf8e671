(** Model of /repo/src/compiler/matcher.rs. *)
From Verif Require Import Base M_Names M_Html M_Types M_Token M_Diag M_Ast M_Value M_State.

(** matcher.rs:186-191 *)
Definition bind_one (n : str) (v : value) : EM bool :=
  let* had := frame_set n v false in
  if had then report (Warn (PatternNameAlreadyBound n));;; ret true else ret true.
(** [a && b] for tests with effects, as in matcher.rs:25-184 *)
Definition and_then (a b : EM bool) : EM bool := let* r := a in if r then b else ret false.

Section Matcher.
  (** [evaluate_node], for the expressions in patterns *)
  Variable eval : expr -> ty -> EM value.
  (** [Regex::captures] of the regex crate: the groups of the first match of a regular expression, the whole match first *)
  Variable captures : str -> str -> option (list (option str)).

  (** matcher.rs:128-146, the binding of the groups *)
  Fixpoint bind_groups (gs : list (option str)) (names : list str) : EM bool :=
    match gs, names with
    | g :: gs, n :: names =>
      bind_one n (match g with Some s => VStr s | None => UNIT end);;; bind_groups gs names
    | _, _ => ret true
    end.

  (** matcher.rs:25-156. [all] is [bind_all] (180-184); [spread one mk ps i vs] is [bind_all_with_spread] (158-178), where [vs]
      are the values, [mk] makes the value for a slice of them and [i] is the position of the spread pattern: the three
      slices of patterns are taken one after the other, and [one] makes the value for one of them. *)
  Fixpoint bind_pattern (p : pattern) (v : value) {struct p} : EM bool :=
    let all := (fix all ps vs := match ps, vs with
                                 | p :: ps, v :: vs => and_then (bind_pattern p v) (all ps vs)
                                 | _, _ => ret true
                                 end) in
    let spread := fun (A : Type) (one : A -> value) (mk : list A -> value) => (fix spread ps i (vs : list A) :=
      match ps with
      | [] => crash FPattern
      | p :: ps =>
        match i with
        | 0 =>
          let mid := length vs - length ps in
          and_then (bind_pattern p (mk (firstn mid vs))) (all ps (List.map one (skipn mid vs)))
        | S i =>
          match vs with
          | v :: vs => and_then (bind_pattern p (one v)) (spread ps i vs)
          | [] => crash FPattern
          end
        end
      end) in
    match p with
    | PIgnore => ret true
    | PLiteralNone => ret (is_unit v)
    | PLiteralName n => ret (match v with VStr s => str_eqb s n | _ => false end)
    | PVarName n => bind_one n v
    | PAnd p q => and_then (bind_pattern p v) (bind_pattern q v)
    | POr p q names =>
      let* l := bind_pattern p v in
      let* r := if l then ret true else with_frame (fr_unset_all names);;; bind_pattern q v in
      if r then with_frame (fr_set_missing names UNIT);;; ret true else ret false
    | PEquals e =>
      let* r := catch (eval e TAny) in
      ret (match r with inl other => value_eqb v other | inr _ => false end)
    | PTyped t => ret (check_value t v)
    | PTypeOf n => bind_one n (VStr (t_display (get_type v)))
    | PExactList ps =>
      match v with
      | VList vs => if length ps =? length vs then all ps vs else ret false
      | _ => ret false
      end
    | PExactHtml ps =>
      match to_html v with
      | Some h => if length (html_nodes h) =? length ps then all ps (List.map of_html (html_nodes h)) else ret false
      | None => ret false
      end
    | PSpreadList ps i =>
      match v with
      | VList vs => if length vs + 1 <? length ps then ret false else spread value (fun v => v) VList ps i vs
      | _ => ret false
      end
    | PSpreadHtml ps i =>
      match to_html v with
      | Some h =>
        if length (html_nodes h) + 1 <? length ps then ret false
        else spread html of_html (fun hs => of_html (from_iter hs)) ps i (html_nodes h)
      | None => ret false
      end
    | PDict attrs rest =>
      match v with
      | VDict vs =>
        if match rest with None => negb (length vs =? length attrs) | Some _ => false end then ret false
        else
          and_then
            ((fix go attrs := match attrs with
                              | [] => ret true
                              | (n, p) :: attrs =>
                                match ngetm vs n with
                                | None => ret false
                                | Some v => and_then (bind_pattern p v) (go attrs)
                                end
                              end) attrs)
            match rest with
            | None | Some PIgnore => ret true
            | Some p => bind_pattern p (VDict (List.filter (fun kv => negb (nhas attrs (fst kv))) vs))
            end
      | _ => ret false
      end
    | PTag name attrs content =>
      match v with
      | VHtml (HTag n a c) =>
        and_then (bind_pattern name (VStr n))
          (and_then (bind_pattern attrs
                       (VDict (List.map (fun kv => (fst kv, match snd kv with Some s => VStr s | None => UNIT end)) a)))
             (bind_pattern content (of_html c)))
      | _ => ret false
      end
    | PRegex re names =>
      match v with
      | VStr s =>
        match captures re s with
        | None => ret false
        | Some gs => if length gs =? length names + 1 then bind_groups (List.tl gs) names else crash FGroups
        end
      | _ => ret false
      end
    end.

  (** matcher.rs:9-22, the loop over the branches *)
  Fixpoint match_branches (branches : list (pattern * expr)) (v : value) (hint : ty) : EM value :=
    match branches with
    | [] => report (RuntimeErr NoMatchingBranch);;; fail AlreadyReported
    | (p, handler) :: branches =>
      let* r := in_child_frame (let* b := bind_pattern p v in
                                if b then let* v := eval handler hint in ret (Some v) else ret None) in
      match r with Some v => ret v | None => match_branches branches v hint end
    end.
  (** matcher.rs:9-23 *)
  Definition evaluate_match (subject : expr) (branches : list (pattern * expr)) (hint : ty) : EM value :=
    let* v := eval subject TAny in match_branches branches v hint.
End Matcher.
