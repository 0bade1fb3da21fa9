(** How blocks and files are written. *)
From Coq Require Import List Arith Bool.
Import ListNotations.
From Verif Require Import BlockModel.

Definition etok (e : expr) : tok := match e with Name n => Id n | Expr n => Ex n end.
Definition ptok (p : pat) : tok := match p with PName n => Id n | Pat n => Pt n end.
Definition type_w (ty : option nat) : list tok := match ty with Some t => [Colon; Ty t] | None => [] end.
Definition reset_w (r : option (expr * expr)) : list tok := match r with Some (c, v) => [Reset; OpenParen; etok c; Colon; etok v; CloseParen] | None => [] end.
Definition initial_w (i : option expr) : list tok := match i with Some e => [Initial; OpenParen; etok e; CloseParen] | None => [] end.
Definition cond_w (c : option expr) : list tok := match c with Some e => [OpenBracket; etok e; CloseBracket] | None => [] end.
Definition count_w (n : option (nat + expr)) : list tok :=
  match n with Some (inl t) => [Asterisk; Ty t] | Some (inr e) => [Asterisk; etok e] | None => [] end.
Fixpoint names_w (l : list nat) : list tok := match l with [] => [] | [n] => [Id n] | n :: l => Id n :: Comma :: names_w l end.
Definition vis_w (v : option nat) : list tok := match v with Some n => [Vis n] | None => [] end.
Definition attrs_w (l : list nat) : list tok := map At l.

(** [neat]: without what the parser lets through although it gives it no meaning *)
Section Grammar.
Variable neat : bool.
Variable c : option unit_kind.
Variable stages : bool.
Definition registers : Prop := c = Some Entity \/ c = Some Pipeline.
(** Statements with their attributes and visibility in front *)
Inductive spelled : list nat -> option nat -> stmt -> list tok -> Prop :=
| w_let p ty v a : spelled a None (SBinding p ty v a) ([Let; ptok p] ++ type_w ty ++ [Assignment; etok v; Semi])
| w_register cond p clock reset before after initial v ty a : registers -> (neat = true -> cond = None) ->
    (before = reset /\ after = None) \/ (before = None /\ after = reset) ->
    spelled a None (SRegister p clock reset initial v ty a)
      ([Reg] ++ cond_w cond ++ [OpenParen; etok clock; CloseParen; ptok p] ++ type_w ty ++ reset_w before ++ initial_w initial ++ reset_w after ++ [Assignment; etok v; Semi])
| w_marker count cond a : stages = true -> (neat = true -> a = []) -> spelled a None (SMarker count cond) ([Reg] ++ cond_w cond ++ count_w count ++ [Semi])
| w_decl l comma : l <> [] -> comma = [] \/ comma = [Comma] -> spelled [] None (SDeclaration l) ([Decl] ++ names_w l ++ comma ++ [Semi])
| w_label n : spelled [] None (SLabel n) [Label n]
| w_assert e : spelled [] None (SAssert e) [Assert; etok e; Semi]
| w_set t v : spelled [] None (SSet t v) [Set_; etok t; Assignment; etok v; Semi]
| w_type n a v : spelled a v (SType n a v) [TypeDecl n]
| w_expression e a v : (neat = true -> v = None) -> spelled a v (SExpression e a) [etok e; Semi].
Inductive sequence : list tok -> list stmt -> Prop :=
| s_nil : sequence [] []
| s_cons a v s w ws l : spelled a v s w -> sequence ws l -> sequence (attrs_w a ++ vis_w v ++ w ++ ws) (s :: l).
(** What is between the braces of a block: statements, and the value at the end if there is one *)
Inductive body : list tok -> list stmt -> option expr -> Prop :=
| b_none w l v : sequence w l -> (neat = true -> v = None) -> body (w ++ vis_w v) l None
| b_value w l v e : sequence w l -> (neat = true -> v = None) -> body (w ++ vis_w v ++ [etok e]) l (Some e)
(** the value is lost *)
| b_lost w l v e n : sequence w l -> neat = false -> body (w ++ vis_w v ++ [etok e; Vis n]) (l ++ [SExpression e []]) None.
End Grammar.
(** A file: items with their attributes and visibility *)
Fixpoint items_w (l : list item) : list tok := match l with [] => [] | (n, a, v) :: l => attrs_w a ++ vis_w v ++ Item n :: items_w l end.
(** Statements that go wrong, and how: [damage x rest e] says that [x] begins a statement that cannot go on
    with [rest], for the reason [e] *)
Definition not_expression (t : tok) : Prop := forall e, t <> etok e.
Inductive damage (c : option unit_kind) (stages : bool) : cells -> list tok -> error -> Prop :=
| d_lexer a p rest : damage c stages (map Some (attrs_w a ++ [Let; ptok p]) ++ [None]) rest Lexer
| d_let a t rest : (forall p, t <> ptok p) -> damage c stages (map Some (attrs_w a ++ [Let; t])) rest (Unexpected t)
| d_type a p t rest : (forall n, t <> Ty n) -> damage c stages (map Some (attrs_w a ++ [Let; ptok p; Colon])) (t :: rest) (Unexpected t)
| d_equal a p t rest : t <> Colon -> t <> Assignment -> damage c stages (map Some (attrs_w a ++ [Let; ptok p])) (t :: rest) (Unexpected t)
| d_value a p ty t rest : not_expression t -> damage c stages (map Some (attrs_w a ++ [Let; ptok p] ++ type_w ty ++ [Assignment])) (t :: rest) (Unexpected t)
| d_assert t rest : not_expression t -> damage c stages (map Some [Assert]) (t :: rest) (Unexpected t)
| d_set t rest : not_expression t -> damage c stages (map Some [Set_]) (t :: rest) (Unexpected t)
| d_set_equal e t rest : t <> Assignment -> damage c stages (map Some [Set_; etok e]) (t :: rest) (Unexpected t)
| d_set_value e t rest : not_expression t -> damage c stages (map Some [Set_; etok e; Assignment]) (t :: rest) (Unexpected t)
| d_decl t rest : (forall n, t <> Id n) -> damage c stages (map Some [Decl]) (t :: rest) EmptyDecl
| d_attributes n a k rest : k = Decl \/ k = Assert \/ k = Set_ \/ (exists m, k = Label m) -> damage c stages (map Some (attrs_w (n :: a) ++ [k])) rest AttributesHere
| d_visibility n k rest : k = Let \/ k = Reg \/ k = Decl \/ k = Assert \/ k = Set_ \/ (exists m, k = Label m) -> damage c stages (map Some [Vis n; k]) rest VisibilityHere
| d_function a t rest : c = Some Function -> t <> OpenBracket -> t <> Semi -> t <> Asterisk -> damage c stages (map Some (attrs_w a ++ [Reg])) (t :: rest) RegInFunction
| d_clock a t rest : registers c -> t <> OpenBracket -> t <> Semi -> t <> Asterisk -> t <> OpenParen -> damage c stages (map Some (attrs_w a ++ [Reg])) (t :: rest) (Unexpected t)
| d_stage a rest : stages = false -> damage c stages (map Some (attrs_w a ++ [Reg; Semi])) rest StageOutside.
(** Tokens that start statements, and those after an error that are passed over *)
Definition starts (t : tok) : Prop := match t with Let | Reg | Decl | Label _ | Assert | Set_ | TypeDecl _ => True | _ => False end.
Definition passed (outer : tok -> bool) (t : tok) : Prop := ~ starts t /\ t <> CloseBrace /\ t <> Eof /\ outer t = false.
(** Statements without their [;] *)
Inductive opened : list nat -> stmt -> list tok -> Prop :=
| o_let p ty v a : opened a (SBinding p ty v a) ([Let; ptok p] ++ type_w ty ++ [Assignment; etok v])
| o_assert e : opened [] (SAssert e) [Assert; etok e]
| o_set t v : opened [] (SSet t v) [Set_; etok t; Assignment; etok v].
