(** Model of the parser: libnixf/src/Parse/Parse{Simple,Strings,Expr,Op,Attrs,Lambda}.cpp.

    Each parsing function of the C++ class is one definition below, with the recursive calls going through [rec].
    The body of a C++ loop that calls parsing functions is a definition of its own (the [Q..Loop] requests); the
    rest of the function after the loop is its last iteration.  [run] ties the knot with fuel: one unit per nested
    call or loop iteration.  A node under construction is [make_shared]; its identity is [fresh]. *)
From Verif Require Import Base Diag LexModel AstModel PSupModel SemaModel.

Inductive nt :=
| QExpr | QOp (bp : nat) | QOpLoop (bp : nat) (prefix : node)
| QApp | QAppLoop (fn : node) (args : list node)
| QSelect | QSimple | QParen
| QList | QListLoop (tok : token) (acc : list node)
| QString (ind : bool) | QParts (begin_ : cursor) (acc : list (bytes + node))
| QPath | QPathLoop (begin_ : token) (acc : list (bytes + node))
| QInterp | QAttrName
| QAttrPath | QAttrPathLoop (begin_ : cursor) (names dots : list node) (prev : nat)
| QBinding | QInherit | QInheritLoop (tok : token) (e : option node) (names : list node)
| QBinds | QBindsLoop (begin_ : cursor) (acc : list node)
| QAttrs | QIf | QAssert | QLet | QLegacyLet | QWith
| QFormal | QFormals | QFormalsLoop (tok : token) (acc : list node)
| QLambdaArg | QLambda.

(** ParseOp.cpp:33-68 getBP; [None] where the code is unreachable *)
Definition getBP (k : tkind) : option (nat * nat) :=
  match k with
  | tok_op_pipe_from => Some (1, 2)
  | tok_op_pipe_into => Some (2, 1)
  | tok_op_impl => Some (4, 3)
  | tok_op_or => Some (5, 6)
  | tok_op_and => Some (7, 8)
  | tok_op_eq | tok_op_neq => Some (9, 9)
  | tok_op_lt | tok_op_le | tok_op_ge | tok_op_gt => Some (10, 10)
  | tok_op_update => Some (12, 11)
  | tok_op_add | tok_op_negate => Some (14, 15)
  | tok_op_mul => Some (16, 17)
  | tok_op_div | tok_op_concat => Some (19, 18)
  | _ => None
  end.
(** ParseOp.cpp:70-79 getUnaryBP *)
Definition getUnaryBP (k : tkind) : nat := match k with tok_op_not => 11 | _ => 100 end.
(** tokens.py:69-87 bin_op_tokens: the cases of the switch ParseOp.cpp:110-112 *)
Definition isBinOp (k : tkind) : bool :=
  match k with
  | tok_op_impl | tok_op_or | tok_op_and | tok_op_eq | tok_op_neq | tok_op_lt | tok_op_gt | tok_op_le
  | tok_op_ge | tok_op_update | tok_op_add | tok_op_negate | tok_op_mul | tok_op_div | tok_op_concat
  | tok_op_pipe_into | tok_op_pipe_from => true
  | _ => false
  end.

(** ParseSimple.cpp:14-36 mayProducedBySimple *)
Definition mayProducedBySimple (e : option node) : bool :=
  match e with
  | None => false
  | Some n =>
      match kind_of n with
      | NK_ExprVar | NK_ExprInt | NK_ExprFloat | NK_ExprSPath | NK_ExprString | NK_ExprPath | NK_ExprParen
      | NK_ExprAttrs | NK_ExprList => true
      | _ => false
      end
  end.

(** std::from_chars to int64_t of a digit string: [None] is result_out_of_range *)
Definition dec_N (v : bytes) : N := fold_left (fun a c => a * 10 + (code c - 48))%N v 0%N.
Definition from_chars (v : bytes) : option N :=
  let n := dec_N v in if (n <? 2 ^ 63)%N then Some n else None.

(** ParseStrings.cpp:77-96: the text an escape sequence stands for *)
Definition unescape (v : bytes) : bytes :=
  match v with
  | _ :: c :: _ =>
      if Ascii.eqb c "n" then ["010"%char]
      else if Ascii.eqb c "r" then ["013"%char]
      else if Ascii.eqb c "t" then ["009"%char]
      else [c]
  | _ => []
  end.

Section WithSource.
Variable src : bytes.
Section WithRec.
Variable rec : nt -> P (option node).

Definition ok_ (n : node) : P (option node) := ret (Some n).

(** ParseSimple.cpp:40-79 parseExprParen *)
Definition parseExprParen : P (option node) :=
  let! L := peek 0 in
  let! lparen := mkMisc (trange L) in
  do! passert (tkind_beq (tk L) tok_l_paren) "parseExprParen" in
  do! consume in
  withSync tok_r_paren (
    do! assertLast in
    let! e := rec QExpr in
    do! orNull e "parenthesized" in
    let! er := expect src tok_r_paren in
    match er with
    | Some T =>
        do! consume in
        let! rparen := mkMisc (trange T) in
        do! (if mayProducedBySimple e then
               let! e1 := lift (mkRemoval (trange L)) in
               let! e2 := lift (mkRemoval (trange T)) in
               emit (d_fix (Fix_ (b "remove ( and )") [e1; e2]) (d_tag Faded (diag0 DK_RedundantParen (trange L))))
             else ret tt) in
        let! i := fresh in
        ok_ (NParen i (mkRange (lcur (trange L)) (rcur (trange T))) e lparen (Some rparen))
    | None =>
        do! noteMatch (trange L) tok_l_paren in
        do! (if mayProducedBySimple e then
               let! e1 := lift (mkRemoval (trange L)) in
               emit (d_fix (Fix_ (b "remove (") [e1]) (d_tag Faded (diag0 DK_RedundantParen (trange L))))
             else ret tt) in
        let! r := toLast (lcur (trange L)) in
        let! i := fresh in
        ok_ (NParen i r e lparen None)
    end).

(** ParseSimple.cpp:90-104: the loop of parseExprList and what follows it *)
Definition parseExprListLoop (tok : token) (acc : list node) : P (option node) :=
  let finish :=
    let! er := expect src tok_r_bracket in
    do! (match er with Some _ => consume | None => noteMatch (trange tok) tok_l_bracket end) in
    let! r := toLast (lcur (trange tok)) in
    let! i := fresh in
    ok_ (NList i r acc) in
  let! k := peekk 0 in
  if tkind_beq k tok_r_bracket then finish else
  let! e := rec QSelect in
  match e with
  | None => finish
  | Some n => rec (QListLoop tok (acc ++ [n]))
  end.
(** ParseSimple.cpp:81-105 parseExprList *)
Definition parseExprList : P (option node) :=
  let! tok := peek 0 in
  if negb (tkind_beq (tk tok) tok_l_bracket) then ret None else
  do! consume in
  withSync tok_r_bracket (do! assertLast in rec (QListLoop tok [])).

(** ParseSimple.cpp:107-174 parseExprSimple *)
Definition parseExprSimple : P (option node) :=
  let! tok := peek 0 in
  match tk tok with
  | tok_uri =>
      do! consume in
      let! ip := fresh in
      let! i := fresh in
      let! e1 := lift (mkInsertion (lcur (trange tok)) (b """")) in
      let! e2 := lift (mkInsertion (rcur (trange tok)) (b """")) in
      do! emit (d_fix (Fix_ (b "convert it to string") [e1; e2]) (diag0 DK_DeprecatedURL (trange tok))) in
      ok_ (NString i (trange tok) (NParts ip (trange tok) (mergeFragments [inl (tview tok)])))
  | tok_id =>
      do! consume in
      let! ii := fresh in
      let! i := fresh in
      ok_ (NVar i (trange tok) (NIdent ii (trange tok) (tview tok)))
  | tok_int =>
      do! consume in
      let! v := (match from_chars (tview tok) with
                 | Some n => ret n
                 | None => do! emit (diag0 DK_IntTooBig (trange tok)) in ret 0%N
                 end) in
      let! i := fresh in
      ok_ (NInt i (trange tok) v)
  | tok_float =>
      do! consume in
      let! i := fresh in
      ok_ (NFloat i (trange tok))
  | tok_spath =>
      do! consume in
      let! i := fresh in
      ok_ (NSPath i (trange tok) (firstn (List.length (tview tok) - 2) (skipn 1 (tview tok))))
  | tok_dquote => rec (QString false)
  | tok_quote2 => rec (QString true)
  | tok_path_fragment => rec QPath
  | tok_l_paren => rec QParen
  | tok_kw_rec | tok_l_curly => rec QAttrs
  | tok_l_bracket => rec QList
  | _ => ret None
  end.

(** ParseStrings.cpp:6-27 parseInterpolation *)
Definition parseInterpolation : P (option node) :=
  let! tok := peek 0 in
  do! passert (tkind_beq (tk tok) tok_dollar_curly) "parseInterpolation" in
  do! consume in
  withSync tok_r_curly (
    do! assertLast in
    withState src PS_Expr (
      let! e := rec QExpr in
      do! orNull e "interpolation" in
      let! er := expect src tok_r_curly in
      do! (match er with Some _ => consume | None => noteMatch (trange tok) tok_dollar_curly end) in
      let! r := toLast (lcur (trange tok)) in
      let! i := fresh in
      ok_ (NInterp i r e))).

(** ParseStrings.cpp:36-50: the loop of parseExprPath, and lines 52-55 (which in C++ run after the mode has been
    popped; they only build the nodes) *)
Definition parseExprPathLoop (begin_ : token) (acc : list (bytes + node)) : P (option node) :=
  let! current := peek 0 in
  let acc := acc ++ [inl (tview current)] in
  do! consume in
  let! next := peekk 0 in
  match next with
  | tok_path_end =>
      let r := mkRange (lcur (trange begin_)) (rcur (trange current)) in
      let! ip := fresh in
      let! i := fresh in
      ok_ (NPath i r (NParts ip r (mergeFragments acc)))
  | tok_dollar_curly =>
      let! e := rec QInterp in
      rec (QPathLoop begin_ (match e with Some n => acc ++ [inr n] | None => acc end))
  | _ => crash "should be path_end or ${"
  end.
(** ParseStrings.cpp:29-56 parseExprPath *)
Definition parseExprPath : P (option node) :=
  let! begin_ := peek 0 in
  do! passert (tkind_beq (tk begin_) tok_path_fragment) "parseExprPath" in
  withState src PS_Path (rec (QPathLoop begin_ [])).

(** ParseStrings.cpp:58-109 parseStringParts (the first peek is in [parseString]) *)
Definition parseStringParts (begin_ : cursor) (acc : list (bytes + node)) : P (option node) :=
  let! tok := peek 0 in
  match tk tok with
  | tok_dollar_curly =>
      let! e := rec QInterp in
      rec (QParts begin_ (match e with Some n => acc ++ [inr n] | None => acc end))
  | tok_string_part =>
      do! consume in
      rec (QParts begin_ (acc ++ [inl (tview tok)]))
  | tok_string_escape =>
      do! consume in
      rec (QParts begin_ (match unescape (tview tok) with [] => acc | u => acc ++ [inl u] end))
  | _ =>
      do! assertLast in
      let! r := toLast begin_ in
      let! i := fresh in
      ok_ (NParts i r (mergeFragments acc))
  end.
(** ParseStrings.cpp:111-134 parseString *)
Definition parseString (ind : bool) : P (option node) :=
  let qk := if ind then tok_quote2 else tok_dquote in
  let! quote := peek 0 in
  do! passert (tkind_beq (tk quote) qk) "should be a quote" in
  do! consume in
  withSync qk (
    do! assertLast in
    withState src (if ind then PS_IndString else PS_String) (
      let! begin_ := lCur in
      let! p := rec (QParts begin_ []) in
      match p with
      | None => crash "parts must not be null"
      | Some parts =>
          let! er := expect src qk in
          match er with
          | Some T =>
              do! consume in
              let! i := fresh in
              ok_ (NString i (mkRange (lcur (trange quote)) (rcur (trange T))) parts)
          | None =>
              do! noteMatch (trange quote) qk in
              let! i := fresh in
              ok_ (NString i (mkRange (lcur (trange quote)) (nr parts)) parts)
          end
      end)).

(** ParseExpr.cpp:6-53 parseExprSelect *)
Definition parseExprSelect : P (option node) :=
  let! e := rec QSimple in
  match e with
  | None => ret None
  | Some ex =>
      do! assertLast in
      let! tok := peek 0 in
      if negb (tkind_beq (tk tok) tok_dot) then ret (Some ex) else
      let! id := fresh in
      let dot := NDot id (trange tok) (nid ex) None in
      do! consume in
      let! path := rec QAttrPath in
      do! (match path with
           | Some _ => ret tt
           | None =>
               let! f1 := fix1 (b "remove extra .") (mkRemoval (trange tok)) in
               let! f2 := fix1 (b "insert dummy attrpath") (mkInsertion (rcur (trange tok)) (b """dummy""")) in
               emit (d_fix f2 (d_fix f1 (diag0 DK_SelectExtraDot (trange tok))))
           end) in
      let! tokor := peek 0 in
      if negb (tkind_beq (tk tokor) tok_kw_or) then
        let! r := toLast (nl ex) in
        let! i := fresh in
        ok_ (NSelect i r ex (Some dot) path None None)
      else
        do! consume in
        let! dflt := rec QSelect in
        do! (match dflt with
             | Some _ => ret tt
             | None =>
                 do! diagNullExpr "default" in
                 addFix (b "remove `or` keyword") (mkRemoval (trange tokor))
             end) in
        let! r := toLast (nl ex) in
        let! i := fresh in
        ok_ (NSelect i r ex (Some dot) path dflt None)
  end.

(** ParseExpr.cpp:61-73: the loop of parseExprApp.  The limit of INT_MAX arguments is not modelled. *)
Definition parseExprAppLoop (fn : node) (args : list node) : P (option node) :=
  let! arg := rec QSelect in
  match arg with
  | Some a => rec (QAppLoop fn (args ++ [a]))
  | None =>
      match args with
      | [] => ok_ fn
      | _ =>
          let! i := fresh in
          ok_ (NCall i (mkRange (nl fn) (nr (last args fn))) fn args)
      end
  end.
(** ParseExpr.cpp:55-74 parseExprApp *)
Definition parseExprApp : P (option node) :=
  let! fn := rec QSelect in
  match fn with
  | None => ret None
  | Some f => if maybeLambda f then rec (QAppLoop f []) else ok_ f
  end.

(** ParseExpr.cpp:76-144 parseExpr *)
Definition parseExpr : P (option node) :=
  let! k0 := peekk 0 in
  match k0 with
  | tok_id =>
      let! k1 := peekk 1 in
      match k1 with
      | tok_at | tok_colon => rec QLambda
      | _ => rec (QOp 0)
      end
  | tok_l_curly =>
      let! k1 := peekk 1 in
      match k1 with
      | tok_id =>
          let! k2 := peekk 2 in
          match k2 with
          | tok_colon | tok_at | tok_question | tok_comma | tok_id | tok_ellipsis => rec QLambda
          | tok_r_curly =>
              let! k3 := peekk 3 in
              match k3 with
              | tok_colon | tok_at => rec QLambda
              | _ => rec QAttrs
              end
          | _ => rec (QOp 0)
          end
      | tok_r_curly =>
          let! k2 := peekk 2 in
          match k2 with
          | tok_at | tok_colon => rec QLambda
          | _ => rec (QOp 0)
          end
      | tok_ellipsis => rec QLambda
      | _ => rec (QOp 0)
      end
  | tok_kw_if => rec QIf
  | tok_kw_assert => rec QAssert
  | tok_kw_let =>
      let! k1 := peekk 1 in
      if tkind_beq k1 tok_l_curly then rec QLegacyLet else rec QLet
  | tok_kw_with => rec QWith
  | _ => rec (QOp 0)
  end.

(** ParseExpr.cpp:146-211 parseExprIf *)
Definition parseExprIf : P (option node) :=
  let! lc := lCur in
  let! tokif := peek 0 in
  do! passert (tkind_beq (tk tokif) tok_kw_if) "parseExprIf" in
  do! consume in
  do! assertLast in
  let done (c t e : option node) :=
    let! r := toLast lc in
    let! i := fresh in
    ok_ (NIf i r c t e) in
  withSync tok_kw_then (withSync tok_kw_else (
    let! cond := rec QExpr in
    let! stop := (match cond with
                  | Some _ => ret false
                  | None =>
                      do! diagNullExpr "condition" in
                      do! addFix (b "remove `if` keyword") (mkRemoval (trange tokif)) in
                      do! addFix (b "insert dummy condition") (mkInsertion (rcur (trange tokif)) (b "true")) in
                      let! k := peekk 0 in
                      ret (negb (tkind_beq k tok_kw_then))
                  end) in
    if stop : bool then done cond None None else
    let! expthen := expect src tok_kw_then in
    match expthen with
    | None => do! noteMatch (trange tokif) tok_kw_if in done cond None None
    | Some _ =>
        do! consume in
        let! th := rec QExpr in
        let! stop := (match th with
                      | Some _ => ret false
                      | None =>
                          do! diagNullExpr "then" in
                          do! noteMatch (trange tokif) tok_kw_if in
                          let! k := peekk 0 in
                          ret (negb (tkind_beq k tok_kw_else))
                      end) in
        if stop : bool then done cond th None else
        let! expelse := expect src tok_kw_else in
        match expelse with
        | None => done cond th None
        | Some _ =>
            do! consume in
            let! el := rec QExpr in
            do! (match el with
                 | Some _ => ret tt
                 | None => do! diagNullExpr "else" in noteMatch (trange tokif) tok_kw_if
                 end) in
            done cond th el
        end
    end)).

(** ParseExpr.cpp:213-254 parseExprAssert (line 228 compares with the colon, not the semicolon) *)
Definition parseExprAssert : P (option node) :=
  let! lc := lCur in
  let! tok := peek 0 in
  do! passert (tkind_beq (tk tok) tok_kw_assert) "parseExprAssert" in
  do! consume in
  do! assertLast in
  let done (c v : option node) :=
    let! r := toLast lc in
    let! i := fresh in
    ok_ (NAssert i r c v) in
  withSync tok_semi_colon (
    let! cond := rec QExpr in
    let! stop := (match cond with
                  | Some _ => ret false
                  | None =>
                      do! diagNullExpr "condition" in
                      do! addFix (b "remove `assert` keyword") (mkRemoval (trange tok)) in
                      let! k := peekk 0 in
                      ret (negb (tkind_beq k tok_colon))
                  end) in
    if stop : bool then done cond None else
    let! expsemi := expect src tok_semi_colon in
    match expsemi with
    | None => do! noteMatch (trange tok) tok_kw_assert in done cond None
    | Some _ =>
        do! consume in
        let! v := rec QExpr in
        do! orNull v "assert value" in
        done cond v
    end).

(** ParseExpr.cpp:256-293 parseExprLet *)
Definition parseExprLet : P (option node) :=
  let! lc := lCur in
  let! tok := peek 0 in
  do! passert (tkind_beq (tk tok) tok_kw_let) "parseExprLet" in
  let! kwlet := mkMisc (trange tok) in
  do! consume in
  withSync tok_kw_in (
    do! assertLast in
    let! binds := rec QBinds in
    let! attrs := (match binds with
                   | Some bn => let! a := onExprAttrs (nrange bn) binds (Some kwlet) in ret (Some a)
                   | None => ret None
                   end) in
    let! expin := expect src tok_kw_in in
    match expin with
    | None =>
        let! r := toLast lc in
        let! i := fresh in
        ok_ (NLet i r kwlet None None attrs)
    | Some T =>
        let! kwin := mkMisc (trange T) in
        do! consume in
        let! e := rec QExpr in
        do! orNull e "let ... in" in
        let! r := toLast lc in
        let! i := fresh in
        ok_ (NLet i r kwlet (Some kwin) e attrs)
    end).

(** ParseExpr.cpp:295-332 parseExprWith *)
Definition parseExprWith : P (option node) :=
  let! lc := lCur in
  let! tok := peek 0 in
  do! passert (tkind_beq (tk tok) tok_kw_with) "parseExprWith" in
  do! consume in
  let! kw := mkMisc (trange tok) in
  do! assertLast in
  withSync tok_semi_colon (
    let! w := rec QExpr in
    do! orNull w "with expression" in
    let! expsemi := expect src tok_semi_colon in
    match expsemi with
    | None =>
        do! noteMatch (trange tok) tok_kw_with in
        let! r := toLast lc in
        let! i := fresh in
        ok_ (NWith i r kw None w None)
    | Some T =>
        let! semi := mkMisc (trange T) in
        do! consume in
        let! e := rec QExpr in
        do! orNull e "with body" in
        let! r := toLast lc in
        let! i := fresh in
        ok_ (NWith i r kw (Some semi) w e)
    end).

(** ParseExpr.cpp:373-383: the first plain binding whose first name is [body] *)
Fixpoint body_binding (bs : list node) : option (node * option node) :=
  match bs with
  | [] => None
  | (NBinding _ _ p v _ as bd) :: bs' =>
      match path_names p with
      | [] => body_binding bs'
      | n :: _ =>
          match staticName n with
          | Some x => if bytes_eqb x (b "body") then Some (bd, v) else body_binding bs'
          | None => body_binding bs'
          end
      end
  | _ :: bs' => body_binding bs'
  end.
(** ParseExpr.cpp:334-398 parseExprLegacyLet *)
Definition parseExprLegacyLet : P (option node) :=
  let! lc := lCur in
  let! toklet := peek 0 in
  do! passert (tkind_beq (tk toklet) tok_kw_let) "parseExprLegacyLet" in
  let! kwlet := mkMisc (trange toklet) in
  do! consume in
  withSync tok_r_curly (
    let! lcurly := peek 0 in
    let! er := expect src tok_l_curly in
    do! (match er with Some _ => consume | None => ret tt end) in
    do! assertLast in
    let! binds := rec QBinds in
    let! lr := lastR in
    let! er2 := expect src tok_r_curly in
    let! rcurlyR := (match er2 with
                     | Some T => do! consume in ret (trange T)
                     | None => do! noteMatch (trange lcurly) (tk lcurly) in ret (mkRange lr lr)
                     end) in
    let! ar := toLast (lcur (trange toklet)) in
    let! attrs := onExprAttrs ar binds (Some kwlet) in
    let! full := toLast lc in
    let hasBody := match attrs_sema attrs with
                   | Some sa => is_some (sfind (b "body") (sa_static sa))
                   | None => false
                   end in
    do! emit (diag0 DK_DeprecatedLet full) in
    do! (if hasBody then
           match body_binding (binds_list binds) with
           | Some (bd, Some v) =>
               let! e1 := lift (mkRemoval (trange lcurly)) in
               let! e2 := lift (mkRemoval (nrange bd)) in
               let! text := lift (nsrc src v) in
               let! e3 := lift (mkEdit rcurlyR (b "in " ++ text)) in
               upd_last (d_fix (Fix_ (b "convert to `let ... in ...`") [e1; e2; e3]))
           | _ => ret tt
           end
         else emit (diag0 DK_LetAttrsMissingBody full)) in
    let! i := fresh in
    ok_ (NLegacyLet i full kwlet (Some attrs))).

(** ParseOp.cpp:108-178: the loop of parseExprOpBP *)
Definition parseExprOpLoop (bp : nat) (prefix : node) : P (option node) :=
  let! tok := peek 0 in
  let binary (rbp : nat) (what : string) :=
    do! consume in
    do! assertLast in
    let! io := fresh in
    let! rhs := rec (QOp rbp) in
    match rhs with
    | None => do! diagNullExpr what in rec (QOpLoop bp prefix)
    | Some rn =>
        let! i := fresh in
        rec (QOpLoop bp (NBinOp i (mkRange (nl prefix) (nr rn)) (NOp io (trange tok) (tk tok))
                                (Some prefix) (Some rn)))
    end in
  if isBinOp (tk tok) then
    match getBP (tk tok) with
    | None => crash "getBP: unreachable"
    | Some (lbp, rbp) =>
        if Nat.ltb lbp bp then ok_ prefix else
        do! (if Nat.eqb bp lbp then emit (diag0 DK_OperatorNotAssociative (trange tok)) else ret tt) in
        binary rbp "binary op RHS"%string
    end
  else match tk tok with
  | tok_question =>
      do! consume in
      do! assertLast in
      let! io := fresh in
      let! path := rec QAttrPath in
      let! r := toLast (nl prefix) in
      let! i := fresh in
      rec (QOpLoop bp (NHasAttr i r (NOp io (trange tok) (tk tok)) (Some prefix) path))
  | tok_kw_or =>
      let! f := fix1 (b "replace 'or' with '||'") (mkEdit (trange tok) (b "||")) in
      do! emit (d_fix f (diag0 DK_KeywordOrIsNotBinaryOp (trange tok))) in
      binary 6 "RHS of 'or'"%string
  | _ => ok_ prefix
  end.
(** ParseOp.cpp:83-179 parseExprOpBP *)
Definition parseExprOpBP (bp : nat) : P (option node) :=
  let! lc := lCur in
  let! tok := peek 0 in
  let! prefix :=
    (match tk tok with
     | tok_op_not | tok_op_negate =>
         do! consume in
         do! assertLast in
         let! io := fresh in
         let! e := rec (QOp (getUnaryBP (tk tok))) in
         do! (match e with
              | Some _ => ret tt
              | None => match tk tok with
                        | tok_op_not => diagNullExpr "unary operator !"
                        | _ => diagNullExpr "unary operator -"
                        end
              end) in
         let! r := toLast lc in
         let! i := fresh in
         ok_ (NUnary i r (NOp io (trange tok) (tk tok)) e)
     | _ => rec QApp
     end) in
  match prefix with
  | None => ret None
  | Some p => rec (QOpLoop bp p)
  end.

(** ParseAttrs.cpp:6-28 parseAttrName *)
Definition parseAttrName : P (option node) :=
  let! tok := peek 0 in
  let ident :=
    do! consume in
    let! ii := fresh in
    let! i := fresh in
    ok_ (NAttrName i (trange tok) (NIdent ii (trange tok) (tview tok))) in
  match tk tok with
  | tok_kw_or => do! emit (diag0 DK_OrIdentifier (trange tok)) in ident
  | tok_id => ident
  | tok_dquote =>
      let! s := rec (QString false) in
      match s with
      | None => crash "String must not be null"
      | Some str => let! i := fresh in ok_ (NAttrName i (nrange str) str)
      end
  | tok_dollar_curly =>
      let! x := rec QInterp in
      match x with
      | None => crash "Interpolation must not be null"
      | Some ip => let! i := fresh in ok_ (NAttrName i (nrange ip) ip)
      end
  | _ => ret None
  end.

(** ParseAttrs.cpp:42-69: the loop of parseAttrPath *)
Definition parseAttrPathLoop (begin_ : cursor) (names dots : list node) (prev : nat) : P (option node) :=
  let! tok := peek 0 in
  if tkind_beq (tk tok) tok_dot then
    do! consume in
    let! next := rec QAttrName in
    let! i := fresh in
    let dot := NDot i (trange tok) prev (match next with Some n => Some (nid n) | None => None end) in
    match next with
    | None =>
        let! f1 := fix1 (b "remove extra .") (mkRemoval (trange tok)) in
        let! f2 := fix1 (b "insert dummy attrname") (mkInsertion (rcur (trange tok)) (b """dummy""")) in
        do! emit (d_fix f2 (d_fix f1 (diag0 DK_AttrPathExtraDot (trange tok)))) in
        rec (QAttrPathLoop begin_ names (dots ++ [dot]) prev)
    | Some n => rec (QAttrPathLoop begin_ (names ++ [n]) (dots ++ [dot]) (nid n))
    end
  else
    let! r := toLast begin_ in
    let! i := fresh in
    ok_ (NAttrPath i r names dots).
(** ParseAttrs.cpp:30-70 parseAttrPath *)
Definition parseAttrPath : P (option node) :=
  let! first := rec QAttrName in
  match first with
  | None => ret None
  | Some f =>
      do! assertLast in
      withSync tok_dot (rec (QAttrPathLoop (nl f) [f] [] (nid f)))
  end.

(** ParseAttrs.cpp:72-103 parseBinding *)
Definition parseBinding : P (option node) :=
  let! path := rec QAttrPath in
  match path with
  | None => ret None
  | Some p =>
      do! assertLast in
      withSync tok_eq (withSync tok_semi_colon (
        let! expeq := expect src tok_eq in
        match expeq with
        | None =>
            let! r := toLast (nl p) in
            let! i := fresh in
            ok_ (NBinding i r p None None)
        | Some T =>
            do! consume in
            let! eq := mkMisc (trange T) in
            let! e := rec QExpr in
            do! orNull e "binding" in
            let! k := peekk 0 in
            do! (if tkind_beq k tok_semi_colon then consume
                 else
                   let! l := lastR in
                   let! f := fix1 (b "insert ;") (mkInsertion l (b ";")) in
                   emit (d_fix f (d_arg (spelling tok_semi_colon) (diag0 DK_Expected (point l))))) in
            let! r := toLast (nl p) in
            let! i := fresh in
            ok_ (NBinding i r p e (Some eq))
        end))
  end.

(** ParseAttrs.cpp:131-159: the loop of parseInherit and what follows it *)
Definition parseInheritLoop (tok : token) (e : option node) (names : list node) : P (option node) :=
  let! n := rec QAttrName in
  match n with
  | Some x => rec (QInheritLoop tok e (names ++ [x]))
  | None =>
      let! er := expect src tok_semi_colon in
      do! (match er with Some _ => consume | None => noteMatch (trange tok) tok_kw_inherit end) in
      do! (match names with
           | [] =>
               let! e1 := lift (mkRemoval (trange tok)) in
               let! es := (match er with
                           | Some T => let! e2 := lift (mkRemoval (trange T)) in ret [e1; e2]
                           | None => ret [e1]
                           end) in
               emit (d_fix (Fix_ (b "remove `inherit` keyword") es) (d_tag Faded (diag0 DK_EmptyInherit (trange tok))))
           | _ => ret tt
           end) in
      let! r := toLast (lcur (trange tok)) in
      let! i := fresh in
      ok_ (NInherit i r names e)
  end.
(** ParseAttrs.cpp:105-160 parseInherit *)
Definition parseInherit : P (option node) :=
  let! tok := peek 0 in
  if negb (tkind_beq (tk tok) tok_kw_inherit) then ret None else
  do! consume in
  withSync tok_semi_colon (withSync tok_id (withSync tok_dquote (withSync tok_dollar_curly (
    do! assertLast in
    let! t := peek 0 in
    let! e := (if tkind_beq (tk t) tok_l_paren then
                 do! consume in
                 let! e := rec QExpr in
                 do! orNull e "inherit" in
                 let! er := expect src tok_r_paren in
                 do! (match er with Some _ => consume | None => noteMatch (trange t) tok_l_paren end) in
                 ret e
               else ret None) in
    rec (QInheritLoop tok e []))))).

(** ParseAttrs.cpp:173-192: the loop of parseBinds *)
Definition parseBindsLoop (begin_ : cursor) (acc : list node) : P (option node) :=
  let! bd := rec QBinding in
  match bd with
  | Some n => rec (QBindsLoop begin_ (acc ++ [n]))
  | None =>
      let! inh := rec QInherit in
      match inh with
      | Some n => rec (QBindsLoop begin_ (acc ++ [n]))
      | None =>
          let! rm := removeUnexpected src in
          if rm : bool then rec (QBindsLoop begin_ acc)
          else match acc with
               | [] => ret None
               | _ =>
                   do! assertLast in
                   let! r := toLast begin_ in
                   let! i := fresh in
                   ok_ (NBinds i r acc)
               end
      end
  end.
(** ParseAttrs.cpp:162-193 parseBinds *)
Definition parseBinds : P (option node) :=
  let! begin_ := lCur in
  withSync tok_id (withSync tok_dquote (withSync tok_dollar_curly (withSync tok_kw_inherit (
    rec (QBindsLoop begin_ []))))).

(** ParseAttrs.cpp:195-221 parseExprAttrs *)
Definition parseExprAttrs : P (option node) :=
  withSync tok_r_curly (
    let! first := peek 0 in
    let! rc := (if tkind_beq (tk first) tok_kw_rec then
                  do! consume in
                  let! m := mkMisc (trange first) in ret (Some m)
                else ret None) in
    let! er := expect src tok_l_curly in
    let! matcher := (match er with
                     | Some T => do! consume in ret T
                     | None => ret first
                     end) in
    do! assertLast in
    let! binds := rec QBinds in
    let! er2 := expect src tok_r_curly in
    do! (match er2 with Some _ => consume | None => noteMatch (trange matcher) (tk matcher) end) in
    let! r := toLast (lcur (trange first)) in
    let! a := onExprAttrs r binds rc in
    ok_ a).

(** ParseLambda.cpp:6-48 parseFormal *)
Definition parseFormal : P (option node) :=
  let! lc := lCur in
  let! t0 := peek 0 in
  let! comma := (if tkind_beq (tk t0) tok_comma then
                   do! consume in
                   let! m := mkMisc (trange t0) in ret (Some m)
                 else ret None) in
  let! t := peek 0 in
  match tk t with
  | tok_id =>
      do! consume in
      do! assertLast in
      let! ii := fresh in
      let ident := NIdent ii (trange t) (tview t) in
      let! k := peekk 0 in
      if negb (tkind_beq k tok_question) then
        let! r := toLast lc in
        let! i := fresh in
        ok_ (NFormal i r comma (Some ident) None None)
      else
        do! consume in
        let! d := rec QExpr in
        do! orNull d "default value" in
        let! r := toLast lc in
        let! i := fresh in
        ok_ (NFormal i r comma (Some ident) d None)
  | tok_ellipsis =>
      do! consume in
      do! assertLast in
      let! ell := mkMisc (trange t) in
      let! r := toLast lc in
      let! i := fresh in
      ok_ (NFormal i r comma None None (Some ell))
  | _ =>
      match comma with
      | Some _ =>
          do! assertLast in
          let! r := toLast lc in
          let! i := fresh in
          ok_ (NFormal i r comma None None None)
      | None => ret None
      end
  end.

(** ParseLambda.cpp:63-81: the loop of parseFormals and what follows it *)
Definition parseFormalsLoop (tok : token) (acc : list node) : P (option node) :=
  let finish :=
    let! er := expect src tok_r_curly in
    do! (match er with Some _ => consume | None => noteMatch (trange tok) tok_l_curly end) in
    let! r := toLast (lcur (trange tok)) in
    let! f := onFormals src r acc in
    ok_ f in
  let! k := peekk 0 in
  if tkind_beq k tok_r_curly then finish else
  let! f := rec QFormal in
  match f with
  | Some n => rec (QFormalsLoop tok (acc ++ [n]))
  | None =>
      let! rm := removeUnexpected src in
      if rm : bool then rec (QFormalsLoop tok acc) else finish
  end.
(** ParseLambda.cpp:50-82 parseFormals *)
Definition parseFormals : P (option node) :=
  let! er := expect src tok_l_curly in
  match er with
  | None => ret None
  | Some T =>
      do! consume in
      do! assertLast in
      withSync tok_r_curly (withSync tok_comma (withSync tok_question (withSync tok_id (
        rec (QFormalsLoop T [])))))
  end.

(** ParseLambda.cpp:84-130 parseLambdaArg *)
Definition parseLambdaArg : P (option node) :=
  let! lc := lCur in
  let! t := peek 0 in
  if tkind_beq (tk t) tok_id then
    do! consume in
    do! assertLast in
    let! ii := fresh in
    let ident := NIdent ii (trange t) (tview t) in
    let! k := peekk 0 in
    if negb (tkind_beq k tok_at) then
      let! r := toLast lc in
      let! a := onLambdaArg r (Some ident) None in
      ok_ a
    else
      do! consume in
      let! f := rec QFormals in
      do! (match f with
           | Some _ => ret tt
           | None =>
               let! f1 := fix1 (b "remove extra @") (mkRemoval (trange t)) in
               let! f2 := fix1 (b "insert dummy formals") (mkInsertion (rcur (trange t)) (b "{}")) in
               emit (d_fix f2 (d_fix f1 (diag0 DK_LambdaArgExtraAt (trange t))))
           end) in
      let! r := toLast lc in
      let! a := onLambdaArg r (Some ident) f in
      ok_ a
  else
    let! f := rec QFormals in
    match f with
    | None => ret None
    | Some fm =>
        do! assertLast in
        let! tokat := peek 0 in
        if negb (tkind_beq (tk tokat) tok_at) then
          let! r := toLast lc in
          let! a := onLambdaArg r None (Some fm) in
          ok_ a
        else
          do! consume in
          let! er := expect src tok_id in
          match er with
          | None =>
              do! noteMatch (trange tokat) tok_at in
              let! r := toLast lc in
              let! a := onLambdaArg r None (Some fm) in
              ok_ a
          | Some T =>
              do! consume in
              let! ii := fresh in
              let! r := toLast lc in
              let! a := onLambdaArg r (Some (NIdent ii (trange T) (tview T))) (Some fm) in
              ok_ a
          end
    end.

(** ParseLambda.cpp:132-147 parseExprLambda *)
Definition parseExprLambda : P (option node) :=
  let! lc := lCur in
  let! arg := rec QLambdaArg in
  do! assertLast in
  match arg with
  | None => ret None
  | Some a =>
      let! er := expect src tok_colon in
      do! (match er with Some _ => consume | None => ret tt end) in
      let! body := rec QExpr in
      do! orNull body "lambda body" in
      let! r := toLast lc in
      let! i := fresh in
      ok_ (NLambda i r (Some a) body)
  end.

(** which function answers which request *)
Definition step (q : nt) : P (option node) :=
  match q with
  | QExpr => parseExpr
  | QOp bp => parseExprOpBP bp
  | QOpLoop bp p => parseExprOpLoop bp p
  | QApp => parseExprApp
  | QAppLoop f l => parseExprAppLoop f l
  | QSelect => parseExprSelect
  | QSimple => parseExprSimple
  | QParen => parseExprParen
  | QList => parseExprList
  | QListLoop t l => parseExprListLoop t l
  | QString i => parseString i
  | QParts c l => parseStringParts c l
  | QPath => parseExprPath
  | QPathLoop t l => parseExprPathLoop t l
  | QInterp => parseInterpolation
  | QAttrName => parseAttrName
  | QAttrPath => parseAttrPath
  | QAttrPathLoop c ns ds p => parseAttrPathLoop c ns ds p
  | QBinding => parseBinding
  | QInherit => parseInherit
  | QInheritLoop t e l => parseInheritLoop t e l
  | QBinds => parseBinds
  | QBindsLoop c l => parseBindsLoop c l
  | QAttrs => parseExprAttrs
  | QIf => parseExprIf
  | QAssert => parseExprAssert
  | QLet => parseExprLet
  | QLegacyLet => parseExprLegacyLet
  | QWith => parseExprWith
  | QFormal => parseFormal
  | QFormals => parseFormals
  | QFormalsLoop t l => parseFormalsLoop t l
  | QLambdaArg => parseLambdaArg
  | QLambda => parseExprLambda
  end.
End WithRec.

Fixpoint run (fuel : nat) (q : nt) : P (option node) :=
  match fuel with
  | 0 => fun _ => OutOfFuel
  | S f => step (run f) q
  end.

(** Parser.h:153-156 the constructor: pushState(PS_Expr) on an empty stack *)
Definition pinit : pst := PS (lex_init src) [] None [PS_Expr] [] 0.

(** enough fuel for every document (theorem C17) *)
Definition parse_fuel : nat := 32 * (List.length src + 2).

(** ParseSupport.cpp:43-51 Parser::parse and 37-41 nixf::parse: the tree and the final parser state; the
    diagnostics are [diags (plex s)], newest first *)
Definition parse_st : res (option node * pst) :=
  (let! e := run parse_fuel QExpr in
   let! t := peek 0 in
   do! (if tkind_beq (tk t) tok_eof then ret tt else emit (diag0 DK_UnexpectedText (trange t))) in
   ret e) pinit.

Definition parse : res (option node * list diag) :=
  match parse_st with
  | Ok (n, s) => Ok (n, rev (diags (plex s)))
  | Crash w => Crash w
  | OutOfFuel => OutOfFuel
  end.
End WithSource.
