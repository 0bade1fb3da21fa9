(** C66: blocks and files are read as they are written. *)
From Coq Require Import List Arith Bool Lia.
Import ListNotations.
From Verif Require Import BlockModel BlockSpec BlockProofs.

(** Reading a block or a file always ends, whatever the text is *)
Theorem C66_ends : forall outer c stages ts d, (exists x, block outer c stages ts d = Some x) /\ exists x, file ts = Some x.
Proof.
  intros outer c stages ts d. split; [|apply file_ends]. unfold block. destruct (statements_ends outer c stages ts d) as [x ->]. destruct x as [a r d'|]; eauto.
Qed.
Print Assumptions C66_ends.
(** A block is read without an error exactly if it is written as the grammar says, and then as what it
    stands for, up to its own closing brace and no further *)
Theorem C66_block : forall outer c stages ts d l f rest,
  block outer c stages ts d = Some (Done (l, f) rest d) <-> exists w, ts = map Some w ++ Some CloseBrace :: rest /\ body false c stages w l f.
Proof.
  intros outer c stages ts d l f rest. split.
  - intros H. unfold block in H. destruct (statements outer c stages ts d) as [[[l' f'] r d'|]|] eqn:E; try discriminate.
    assert (X : d' = d /\ l' = l /\ f' = f).
    { unfold dbind, lift in H. destruct (eat CloseBrace r) as [u r'|]; [|discriminate]. injection H as -> -> _ ->. auto. }
    destruct X as (-> & -> & ->). apply statements_sound in E. destruct E as (w & r' & -> & -> & B). injection H as <-. eauto.
  - intros (w & -> & B). unfold block. rewrite (statements_complete _ _ _ _ _ _ _ _ _ B). reflexivity.
Qed.
Print Assumptions C66_block.
(** What is written neatly is read as what it stands for, and stands for one thing only *)
Theorem C66_neat : forall outer c stages w l f rest d, body true c stages w l f ->
  block outer c stages (map Some w ++ Some CloseBrace :: rest) d = Some (Done (l, f) rest d).
Proof. intros outer c stages w l f rest d B. unfold block. rewrite (statements_complete _ _ _ _ _ _ _ _ _ B). reflexivity. Qed.
Print Assumptions C66_neat.
Theorem C66_unambiguous : forall c stages w l f l' f', body true c stages w l f -> body true c stages w l' f' -> l = l' /\ f = f'.
Proof.
  intros c stages w l f l' f' B B'. apply (C66_neat (fun _ => false) c stages w l f [] []) in B. apply (C66_neat (fun _ => false) c stages w l' f' [] []) in B'.
  rewrite B in B'. injection B' as <- <-. auto.
Qed.
Print Assumptions C66_unambiguous.
(** Errors noted before are kept, in order *)
Theorem C66_errors_kept : forall outer c stages ts d x, statements outer c stages ts d = Some x -> exists more, (match x with Done _ _ d' | Failed _ _ d' => d' end) = d ++ more.
Proof. intros outer c stages ts d x H. apply g_from in H. destruct H as [y H]. exists y. destruct x; exact H. Qed.
Print Assumptions C66_errors_kept.
(** A statement that goes wrong costs one error, and everything before it and from the next statement
    on is read as if it were not there *)
Theorem C66_resumes : forall outer c stages w1 l1 x e junk w2 l2 f rest d,
  sequence true c stages w1 l1 -> damage c stages x (junk ++ w2 ++ [CloseBrace]) e -> (forall t, In t junk -> passed outer t) ->
  body true c stages w2 l2 f -> (w2 = [] \/ exists t w, w2 = t :: w /\ starts t) ->
  block outer c stages (map Some w1 ++ x ++ map Some junk ++ map Some w2 ++ Some CloseBrace :: rest) d = Some (Done (l1 ++ l2, f) rest (d ++ [e])).
Proof. intros outer c stages w1 l1 x e junk w2 l2 f rest d S1 Hx Hj Hb Hw. unfold block. rewrite (resumes outer c stages w1 l1 x e junk w2 l2 f rest d S1 Hx Hj Hb Hw). reflexivity. Qed.
Print Assumptions C66_resumes.
(** A missing [;] costs one error and nothing else *)
Theorem C66_missing_semicolon : forall outer c stages w1 l1 a s w w2 l2 f t q rest d,
  sequence true c stages w1 l1 -> opened a s w -> body true c stages w2 l2 f -> w2 ++ [CloseBrace] = t :: q -> t <> Semi -> t <> GreekQuestionMark ->
  block outer c stages (map Some (w1 ++ (attrs_w a ++ w) ++ w2) ++ Some CloseBrace :: rest) d = Some (Done (l1 ++ s :: l2, f) rest (d ++ [MissingSemi t])).
Proof.
  intros outer c stages w1 l1 a s w w2 l2 f t q rest d S1 Ho Hb Hq N1 N2. unfold block.
  rewrite (missing_semi outer c stages w1 l1 a s w w2 l2 f t q rest d S1 Ho Hb Hq N1 N2). reflexivity.
Qed.
Print Assumptions C66_missing_semicolon.
(** A file is read without an error to its end exactly if it is a sequence of items, and then as these *)
Theorem C66_file : forall ts l, file ts = Some (Done l [] []) <-> exists a v, ts = map Some (items_w l ++ attrs_w a ++ vis_w v).
Proof. intros ts l. split; [apply file_sound|]. intros (a & v & ->). apply file_complete. Qed.
Print Assumptions C66_file.

(** [let x : T = e; pub type t; decl a, b; reg(clk) y reset(r : v) = e; reg*2; 'l reg[c]; set p = e; #[a] e; e] *)
Definition sample : list tok :=
  [Let; Id 1; Colon; Ty 2; Assignment; Ex 3; Semi; Vis 0; TypeDecl 4; Decl; Id 5; Comma; Id 6; Semi; Reg; OpenParen; Id 7; CloseParen; Id 8; Reset; OpenParen; Ex 9; Colon; Ex 10; CloseParen;
   Assignment; Ex 11; Semi; Reg; Asterisk; Ty 12; Semi; Label 13; Reg; OpenBracket; Ex 14; CloseBracket; Semi; Set_; Ex 15; Assignment; Ex 16; Semi; At 17; Ex 18; Semi].
Definition sample_read : list stmt :=
  [SBinding (PName 1) (Some 2) (Expr 3) []; SType 4 [] (Some 0); SDeclaration [5; 6]; SRegister (PName 8) (Name 7) (Some (Expr 9, Expr 10)) None (Expr 11) None [];
   SMarker (Some (inl 12)) None; SLabel 13; SMarker None (Some (Expr 14)); SSet (Expr 15) (Expr 16); SExpression (Expr 18) [17]].
Example C66_nontrivial_body : body true (Some Pipeline) true (sample ++ [Id 19]) sample_read (Some (Name 19)).
Proof.
  apply (b_value true (Some Pipeline) true sample sample_read None (Name 19)); [|reflexivity]. unfold sample, sample_read.
  apply (s_cons _ _ _ [] None _ [Let; Id 1; Colon; Ty 2; Assignment; Ex 3; Semi]); [apply (w_let _ _ _ (PName 1) (Some 2) (Expr 3))|].
  apply (s_cons _ _ _ [] (Some 0) _ [TypeDecl 4]); [apply w_type|].
  apply (s_cons _ _ _ [] None _ [Decl; Id 5; Comma; Id 6; Semi]); [apply (w_decl _ _ _ [5; 6] []); [discriminate|left; reflexivity]|].
  apply (s_cons _ _ _ [] None _ [Reg; OpenParen; Id 7; CloseParen; Id 8; Reset; OpenParen; Ex 9; Colon; Ex 10; CloseParen; Assignment; Ex 11; Semi]);
    [apply (w_register _ _ _ None (PName 8) (Name 7) (Some (Expr 9, Expr 10)) (Some (Expr 9, Expr 10)) None None (Expr 11) None []); [right; reflexivity|reflexivity|left; split; reflexivity]|].
  apply (s_cons _ _ _ [] None _ [Reg; Asterisk; Ty 12; Semi]); [apply (w_marker _ _ _ (Some (inl 12)) None); reflexivity|].
  apply (s_cons _ _ _ [] None _ [Label 13]); [apply w_label|].
  apply (s_cons _ _ _ [] None _ [Reg; OpenBracket; Ex 14; CloseBracket; Semi]); [apply (w_marker _ _ _ None (Some (Expr 14))); reflexivity|].
  apply (s_cons _ _ _ [] None _ [Set_; Ex 15; Assignment; Ex 16; Semi]); [apply (w_set _ _ _ (Expr 15) (Expr 16))|].
  apply (s_cons _ _ _ [17] None _ [Ex 18; Semi]); [apply (w_expression _ _ _ (Expr 18)); reflexivity|]. apply s_nil.
Qed.
Example C66_nontrivial_block : block (fun _ => false) (Some Pipeline) true (map Some (sample ++ [Id 19]) ++ [Some CloseBrace; Some Semi]) [] = Some (Done (sample_read, Some (Name 19)) [Some Semi] []).
Proof. reflexivity. Qed.
(** A missing [;] costs one error and nothing else; [reg] is refused in functions *)
Example C66_nontrivial_semi : block (fun _ => false) (Some Function) false (map Some [Let; Id 1; Assignment; Ex 2; Let; Id 3; Assignment; Ex 4; Semi; CloseBrace]) [] =
  Some (Done ([SBinding (PName 1) None (Expr 2) []; SBinding (PName 3) None (Expr 4) []], None) [] [MissingSemi Let]).
Proof. reflexivity. Qed.
Example C66_nontrivial_function : forall l f r, block (fun _ => false) (Some Function) false (map Some [Reg; OpenParen; Id 1; CloseParen; Id 2; Assignment; Ex 3; Semi; CloseBrace]) [] <> Some (Done (l, f) r []).
Proof. intros l f r H. discriminate. Qed.
Example C66_nontrivial_resumes : block (fun _ => false) (Some Entity) false (map Some [Let; Id 1; Assignment; Ex 2; Semi; Let; Id 3; Semi; Ex 4; Let; Id 5; Assignment; Ex 6; Semi; Ex 7; CloseBrace]) [] =
  Some (Done ([SBinding (PName 1) None (Expr 2) []; SBinding (PName 5) None (Expr 6) []], Some (Expr 7)) [] [Unexpected Semi]).
Proof.
  pose proof (C66_resumes (fun _ => false) (Some Entity) false [Let; Id 1; Assignment; Ex 2; Semi] [SBinding (PName 1) None (Expr 2) []] (map Some [Let; Id 3]) (Unexpected Semi) [Semi; Ex 4]
    [Let; Id 5; Assignment; Ex 6; Semi; Ex 7] [SBinding (PName 5) None (Expr 6) []] (Some (Expr 7)) [] []) as H. apply H.
  - apply (s_cons _ _ _ [] None _ [Let; Id 1; Assignment; Ex 2; Semi]); [apply (w_let _ _ _ (PName 1) None (Expr 2))|apply s_nil].
  - apply (d_equal _ _ [] (PName 3) Semi [Ex 4; Let; Id 5; Assignment; Ex 6; Semi; Ex 7; CloseBrace]); discriminate.
  - intros t [<-|[<-|[]]]; repeat split; try discriminate; intros [].
  - apply (b_value true _ _ [Let; Id 5; Assignment; Ex 6; Semi] _ None (Expr 7)); [|reflexivity].
    apply (s_cons _ _ _ [] None _ [Let; Id 5; Assignment; Ex 6; Semi]); [apply (w_let _ _ _ (PName 5) None (Expr 6))|apply s_nil].
  - right. exists Let, [Id 5; Assignment; Ex 6; Semi; Ex 7]. split; [reflexivity|exact I].
Qed.
Example C66_nontrivial_file : file (map Some [At 1; Vis 2; Item 3; Item 4; At 5; At 6; Item 7]) = Some (Done [(3, [1], Some 2); (4, [], None); (7, [5; 6], None)] [] []) /\
  file (map Some [Item 1; Semi; Item 2]) = Some (Done [(1, [], None)] [Some Semi; Some (Item 2)] [ExpectedItem Semi]).
Proof. split; reflexivity. Qed.

(** ** What the parser lets through although it gives it no meaning *)
Notation read w := (block (fun _ => false) (Some Pipeline) true (map Some w ++ [Some CloseBrace]) []).
(** Not: the condition in [reg[cond](clk) x = v;] is part of what is read, or an error *)
Theorem C66_condition_refuted : exists cond s, read [Reg; OpenBracket; etok cond; CloseBracket; OpenParen; Id 1; CloseParen; Id 2; Assignment; Ex 3; Semi] = Some (Done ([s], None) [] []) /\
  read [Reg; OpenParen; Id 1; CloseParen; Id 2; Assignment; Ex 3; Semi] = Some (Done ([s], None) [] []).
Proof. exists (Expr 9), (SRegister (PName 2) (Name 1) None None (Expr 3) None []). split; reflexivity. Qed.
(** Not: attributes of [reg;] are part of what is read, or an error *)
Theorem C66_marker_attributes_refuted : exists a s, read [At a; Reg; Semi] = Some (Done ([s], None) [] []) /\ read [Reg; Semi] = Some (Done ([s], None) [] []).
Proof. exists 1, (SMarker None None). split; reflexivity. Qed.
(** Not: [pub] in front of an expression, or of the closing brace, is an error *)
Theorem C66_visibility_refuted : exists v l f, read [Vis v; Ex 1; Semi; Vis v; Ex 2] = Some (Done (l, f) [] []) /\ read [Ex 1; Semi; Ex 2] = Some (Done (l, f) [] []) /\ read [Vis v] = read [].
Proof. exists 7, [SExpression (Expr 1) []], (Some (Expr 2)). repeat split; reflexivity. Qed.
(** Not: a block that ends with an expression and is read without error has its value *)
Theorem C66_lost_refuted : exists v l, read [Ex 1; Vis v] = Some (Done (l, None) [] []) /\ read [Ex 1] = Some (Done ([], Some (Expr 1)) [] []).
Proof. exists 7, [SExpression (Expr 1) []]. split; reflexivity. Qed.
(** Not: attributes and visibility at the end of a file, belonging to nothing, are an error *)
Theorem C66_dangling_refuted : exists a v l, file (map Some [Item 1; At a; Vis v]) = Some (Done l [] []) /\ file (map Some [Item 1]) = Some (Done l [] []).
Proof. exists 2, 3, [(1, [], None)]. split; reflexivity. Qed.
