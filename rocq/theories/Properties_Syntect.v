(** Property theorems C75 (code in other languages). [parse] is what the syntect crate answers for the lines of a source. *)
From Verif Require Import Base BaseFacts M_Text M_Names M_Html M_Diag M_Highlight M_Syntect S_Html S_Text S_Native2 S_Highlight S_Syntect P_Text P_Syntect.

(** C75. The kind of a piece of code is given by the first of the rules that applies. *)
Theorem C75_kind : forall s stack k, token_kind_of s stack = k <-> KindIn s stack k.
Proof. exact kind_iff. Qed.
Print Assumptions C75_kind.
(** If the parser cuts each line into adjacent pieces, or gives up on it, then highlighting succeeds, and shows each piece as it
    is to be shown by its kind (C40); the text of every line is kept. *)
Theorem C75_highlighted : forall parse src language answers, Parses parse -> language <> lit "none" -> language <> lit "papyri" ->
  parse language (lines src) = Some answers ->
  exists css out, Forall2 (fun la cs => LineParsed (fst la) (snd la) cs) (combine (lines src) answers) css /\
    syntax_highlight (syntect_of parse) src language = Ret (out, None) /\ Highlighted css out /\ List.map text_of out = lines src.
Proof. exact highlighted_code. Qed.
Print Assumptions C75_highlighted.

Definition C75_parse (language : str) (ls : list str) : option (list parsed_line) :=
  if str_eqb language (lit "rust") then
    Some (List.map (fun l => if str_eqb l (lit "let x=(1);") then
      Some [(0, 3, [[lit "source"; lit "rust"]; [lit "storage"; lit "type"; lit "rust"]]); (3, 4, [[lit "source"; lit "rust"]]);
            (4, 5, [[lit "source"; lit "rust"]]); (5, 6, [[lit "keyword"; lit "operator"]]); (6, 7, []); (7, 8, [[lit "constant"; lit "numeric"]]);
            (8, 9, []); (9, 10, [])] else None) ls)
  else None.
Example C75_nonvacuous : Parses C75_parse /\ exists l,
  syntax_highlight (syntect_of C75_parse) (lit "let x=(1);") (lit "rust") = Ret ([HSeq l], None) /\
  List.map (fun h => match h with HTag _ ((_, Some c) :: _) _ => c | _ => [] end) l =
    [lit "keyword"; []; lit "name"; lit "op"; lit "lparen"; lit "number"; lit "rparen"; lit "punctuation"] /\
  KindIn (lit "x") [[lit "variable"; lit "annotation"]; [lit "meta"; lit "annotation"]] HDecorator.
Proof.
  split; [|eexists; split; [vm_compute; reflexivity|split; [vm_compute; reflexivity|now apply kind_iff]]].
  intros language ls answers. unfold C75_parse. destruct (str_eqb language (lit "rust")); [|discriminate]. intros [= <-].
  induction ls as [|l ls IH]; constructor; [|exact IH].
  match goal with |- context [str_eqb l ?t] => destruct (str_eqb l t) eqn:E end; [|exact I]. apply BaseFacts.str_eqb_eq in E. subst l.
  eexists [(lit "let", _); (lit " ", _); (lit "x", _); (lit "=", _); (lit "(", _); (lit "1", _); (lit ")", _); (lit ";", _)].
  split; [|reflexivity]. repeat constructor.
Qed.
