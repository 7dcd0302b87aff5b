(** Punctuation tables of the lexer.  Mechanical transcription of crates/dreammaker/src/lexer.rs:61-168. *)
From Coq Require Import List NArith.
Import ListNotations.
Open Scope N_scope.

(** lexer.rs:61-138 Punctuation, one constructor per table entry plus the closing form of the colon *)
Inductive punct : Set :=
  | PTab | PNewline | PSpace | PNot | PNotEq | PDoubleQuote | PHash | PTokenPaste | PMod | PFloatMod
  | PFloatModAssign | PModAssign | PBitAnd | PAnd | PAndAssign | PBitAndAssign | PSingleQuote | PLParen
  | PRParen | PMul | PPow | PMulAssign | PAdd | PPlusPlus | PAddAssign | PComma | PSub | PMinusMinus
  | PSubAssign | PDot | PSuper | PEllipsis | PSlash | PBlockComment | PLineComment | PDivAssign | PColon
  | PCloseColon | PScope | PAssignInto | PSemicolon | PLess | PLShift | PLShiftAssign | PLessEq
  | PLessOrGreater | PLessGreater | PAssign | PEq | PGreater | PGreaterEq | PRShift | PRShiftAssign
  | PQuestionMark | PSafeDot | PSafeColon | PSafeLBracket | PLBracket | PRBracket | PBitXor | PBitXorAssign
  | PLBrace | PBlockString | PBitOr | PBitOrAssign | POr | POrAssign | PRBrace | PBitNot | PNotEquiv | PEquiv
  | PIn.

Definition punct_eq_dec (a b : punct) : {a = b} + {a <> b}.
Proof. decide equality. Defined.

(** lexer.rs:61-138 PUNCT_TABLE, the literals as bytes *)
Definition PUNCT_TABLE : list (list N * punct) :=
  [ ([9], PTab);
    ([10], PNewline);
    ([32], PSpace);
    ([33], PNot);
    ([33; 61], PNotEq);
    ([34], PDoubleQuote);
    ([35], PHash);
    ([35; 35], PTokenPaste);
    ([37], PMod);
    ([37; 37], PFloatMod);
    ([37; 37; 61], PFloatModAssign);
    ([37; 61], PModAssign);
    ([38], PBitAnd);
    ([38; 38], PAnd);
    ([38; 38; 61], PAndAssign);
    ([38; 61], PBitAndAssign);
    ([39], PSingleQuote);
    ([40], PLParen);
    ([41], PRParen);
    ([42], PMul);
    ([42; 42], PPow);
    ([42; 61], PMulAssign);
    ([43], PAdd);
    ([43; 43], PPlusPlus);
    ([43; 61], PAddAssign);
    ([44], PComma);
    ([45], PSub);
    ([45; 45], PMinusMinus);
    ([45; 61], PSubAssign);
    ([46], PDot);
    ([46; 46], PSuper);
    ([46; 46; 46], PEllipsis);
    ([47], PSlash);
    ([47; 42], PBlockComment);
    ([47; 47], PLineComment);
    ([47; 61], PDivAssign);
    ([58], PColon);
    ([58; 58], PScope);
    ([58; 61], PAssignInto);
    ([59], PSemicolon);
    ([60], PLess);
    ([60; 60], PLShift);
    ([60; 60; 61], PLShiftAssign);
    ([60; 61], PLessEq);
    ([60; 61; 62], PLessOrGreater);
    ([60; 62], PLessGreater);
    ([61], PAssign);
    ([61; 61], PEq);
    ([62], PGreater);
    ([62; 61], PGreaterEq);
    ([62; 62], PRShift);
    ([62; 62; 61], PRShiftAssign);
    ([63], PQuestionMark);
    ([63; 46], PSafeDot);
    ([63; 58], PSafeColon);
    ([63; 91], PSafeLBracket);
    ([91], PLBracket);
    ([93], PRBracket);
    ([94], PBitXor);
    ([94; 61], PBitXorAssign);
    ([123], PLBrace);
    ([123; 34], PBlockString);
    ([124], PBitOr);
    ([124; 61], PBitOrAssign);
    ([124; 124], POr);
    ([124; 124; 61], POrAssign);
    ([125], PRBrace);
    ([126], PBitNot);
    ([126; 33], PNotEquiv);
    ([126; 61], PEquiv);
    ([105; 110], PIn) ].

(** lexer.rs:151-168 SPEEDY_TABLE *)
Definition SPEEDY_TABLE : list (nat * nat) :=
  [ (0, 0); (0, 0); (0, 0); (0, 0); (0, 0); (0, 0); (0, 0); (0, 0);
    (0, 0); (0, 1); (1, 2); (0, 0); (0, 0); (0, 0); (0, 0); (0, 0);
    (0, 0); (0, 0); (0, 0); (0, 0); (0, 0); (0, 0); (0, 0); (0, 0);
    (0, 0); (0, 0); (0, 0); (0, 0); (0, 0); (0, 0); (0, 0); (0, 0);
    (2, 3); (3, 5); (5, 6); (6, 8); (0, 0); (8, 12); (12, 16); (16, 17);
    (17, 18); (18, 19); (19, 22); (22, 25); (25, 26); (26, 29); (29, 32); (32, 36);
    (0, 0); (0, 0); (0, 0); (0, 0); (0, 0); (0, 0); (0, 0); (0, 0);
    (0, 0); (0, 0); (36, 39); (39, 40); (40, 46); (46, 48); (48, 52); (52, 56);
    (0, 0); (0, 0); (0, 0); (0, 0); (0, 0); (0, 0); (0, 0); (0, 0);
    (0, 0); (0, 0); (0, 0); (0, 0); (0, 0); (0, 0); (0, 0); (0, 0);
    (0, 0); (0, 0); (0, 0); (0, 0); (0, 0); (0, 0); (0, 0); (0, 0);
    (0, 0); (0, 0); (0, 0); (56, 57); (0, 0); (57, 58); (58, 60); (0, 0);
    (0, 0); (0, 0); (0, 0); (0, 0); (0, 0); (0, 0); (0, 0); (0, 0);
    (0, 0); (0, 0); (0, 0); (0, 0); (0, 0); (0, 0); (0, 0); (0, 0);
    (0, 0); (0, 0); (0, 0); (0, 0); (0, 0); (0, 0); (0, 0); (0, 0);
    (0, 0); (0, 0); (0, 0); (60, 62); (62, 66); (66, 67); (67, 70) ]%nat.

(** lexer.rs:43-50 Punctuation::close *)
Definition close (p : punct) : punct := match p with PColon => PCloseColon | _ => p end.

(** lexer.rs:24-31 Punctuation::value *)
Definition value (p : punct) : list N :=
  match p with
  | PTab => [9]
  | PNewline => [10]
  | PSpace => [32]
  | PNot => [33]
  | PNotEq => [33; 61]
  | PDoubleQuote => [34]
  | PHash => [35]
  | PTokenPaste => [35; 35]
  | PMod => [37]
  | PFloatMod => [37; 37]
  | PFloatModAssign => [37; 37; 61]
  | PModAssign => [37; 61]
  | PBitAnd => [38]
  | PAnd => [38; 38]
  | PAndAssign => [38; 38; 61]
  | PBitAndAssign => [38; 61]
  | PSingleQuote => [39]
  | PLParen => [40]
  | PRParen => [41]
  | PMul => [42]
  | PPow => [42; 42]
  | PMulAssign => [42; 61]
  | PAdd => [43]
  | PPlusPlus => [43; 43]
  | PAddAssign => [43; 61]
  | PComma => [44]
  | PSub => [45]
  | PMinusMinus => [45; 45]
  | PSubAssign => [45; 61]
  | PDot => [46]
  | PSuper => [46; 46]
  | PEllipsis => [46; 46; 46]
  | PSlash => [47]
  | PBlockComment => [47; 42]
  | PLineComment => [47; 47]
  | PDivAssign => [47; 61]
  | PColon => [58]
  | PCloseColon => [58]
  | PScope => [58; 58]
  | PAssignInto => [58; 61]
  | PSemicolon => [59]
  | PLess => [60]
  | PLShift => [60; 60]
  | PLShiftAssign => [60; 60; 61]
  | PLessEq => [60; 61]
  | PLessOrGreater => [60; 61; 62]
  | PLessGreater => [60; 62]
  | PAssign => [61]
  | PEq => [61; 61]
  | PGreater => [62]
  | PGreaterEq => [62; 61]
  | PRShift => [62; 62]
  | PRShiftAssign => [62; 62; 61]
  | PQuestionMark => [63]
  | PSafeDot => [63; 46]
  | PSafeColon => [63; 58]
  | PSafeLBracket => [63; 91]
  | PLBracket => [91]
  | PRBracket => [93]
  | PBitXor => [94]
  | PBitXorAssign => [94; 61]
  | PLBrace => [123]
  | PBlockString => [123; 34]
  | PBitOr => [124]
  | PBitOrAssign => [124; 61]
  | POr => [124; 124]
  | POrAssign => [124; 124; 61]
  | PRBrace => [125]
  | PBitNot => [126]
  | PNotEquiv => [126; 33]
  | PEquiv => [126; 61]
  | PIn => [105; 110]
  end.
