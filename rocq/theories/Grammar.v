(** The grammar of dynaml expressions: the rules of dynaml/dynaml.peg, taken from the
    generated parser dynaml/dynaml.peg.go (the comments before its functions).
    Adjacent characters are joined to literals, alternatives of single characters to
    sets; the empty actions (rules Action0-Action2) are dropped.  Generated by a
    script.  No proofs in this file. *)
From Verif Require Import Core Str Peg.
Import ListNotations.

(** dynaml.peg.go:16-130 pegRule *)
Inductive rule :=
| R_Dynaml | R_Prefer | R_MarkedExpression | R_SubsequentMarker | R_Marker | R_TagMarker
| R_MarkerExpression | R_Expression | R_Scoped | R_Scope | R_CreateScope | R_Level7 | R_Or
| R_OrOp | R_Level6 | R_Conditional | R_Level5 | R_Concatenation | R_Level4 | R_LogOr
| R_LogAnd | R_Level3 | R_Comparison | R_CompareOp | R_Level2 | R_Addition | R_Subtraction
| R_Level1 | R_Multiplication | R_Division | R_Modulo | R_Level0 | R_Chained
| R_ChainedQualifiedExpression | R_ChainedRef | R_ChainedDynRef | R_TopIndex | R_Indices
| R_Slice | R_Currying | R_ChainedCall | R_StartArguments | R_NameArgumentList
| R_NextNameArgument | R_ExpressionList | R_NextExpression | R_ListExpansion | R_Projection
| R_ProjectionValue | R_Substitution | R_Not | R_Grouped | R_Range | R_StartRange | R_RangeOp
| R_Number | R_String | R_Boolean | R_Nil | R_Undefined | R_Symbol | R_List | R_StartList
| R_Map | R_CreateMap | R_Assignments | R_Assignment | R_Merge | R_RefMerge | R_SimpleMerge
| R_Replace | R_Required | R_On | R_Auto | R_Default | R_Sync | R_LambdaExt | R_LambdaOrExpr
| R_Catch | R_FilterList | R_FilterMap | R_MapMapping | R_Mapping | R_MapSelection
| R_Selection | R_Sum | R_Lambda | R_LambdaRef | R_LambdaExpr | R_Params | R_StartParams
| R_Names | R_NextName | R_Name | R_DefaultValue | R_VarParams | R_Reference | R_TagPrefix
| R_Tag | R_TagComponent | R_FollowUpRef | R_PathComponent | R_Key | R_Index | R_IP | R_ws
| R_req_ws.

Notation "a ~> b" := (PSeq a b) (at level 41, right associativity).
Notation "a // b" := (PAlt a b) (at level 42, right associativity).
Notation "@@ r" := (PRule r) (at level 0, r at level 0).

Local Open Scope string_scope.
Local Open Scope list_scope.
(** dynaml.peg:5-139, dynaml.peg.go:720-4500 *)
Definition grammar (r : rule) : peg rule :=
  match r with
  | R_Dynaml => ((@@R_Prefer // @@R_MarkedExpression // @@R_Expression) ~> (PNot PAny))
  | R_Prefer => (@@R_ws ~> (PLit "prefer") ~> @@R_req_ws ~> @@R_Expression)
  | R_MarkedExpression => (@@R_ws ~> @@R_Marker ~> (PStar (@@R_req_ws ~> @@R_SubsequentMarker)) ~> @@R_ws ~> (POpt @@R_MarkerExpression) ~> @@R_ws)
  | R_SubsequentMarker => @@R_Marker
  | R_Marker => ((PLit "&") ~> ((PLit "template") // (PLit "temporary") // (PLit "local") // (PLit "inject") // (PLit "state") // (PLit "default") // (PLit "dynamic") // @@R_TagMarker))
  | R_TagMarker => ((PLit "tag:") ~> (POpt (PLit "*")) ~> @@R_Tag)
  | R_MarkerExpression => @@R_Grouped
  | R_Expression => ((@@R_Scoped // @@R_LambdaExpr // @@R_Level7) ~> @@R_ws)
  | R_Scoped => (@@R_ws ~> @@R_Scope ~> @@R_ws ~> @@R_Expression)
  | R_Scope => (@@R_CreateScope ~> @@R_ws ~> (POpt @@R_Assignments) ~> (PLit ")"))
  | R_CreateScope => (PLit "(")
  | R_Level7 => (@@R_ws ~> @@R_Level6 ~> (PStar (@@R_req_ws ~> @@R_Or)))
  | R_Or => (@@R_OrOp ~> @@R_req_ws ~> @@R_Level6)
  | R_OrOp => ((PLit "||") // (PLit "//"))
  | R_Level6 => (@@R_Conditional // @@R_Level5)
  | R_Conditional => (@@R_Level5 ~> @@R_ws ~> (PLit "?") ~> @@R_Expression ~> (PLit ":") ~> @@R_Expression)
  | R_Level5 => (@@R_Level4 ~> (PStar @@R_Concatenation))
  | R_Concatenation => (@@R_req_ws ~> @@R_Level4)
  | R_Level4 => (@@R_Level3 ~> (PStar (@@R_req_ws ~> (@@R_LogOr // @@R_LogAnd))))
  | R_LogOr => ((PLit "-or") ~> @@R_req_ws ~> @@R_Level3)
  | R_LogAnd => ((PLit "-and") ~> @@R_req_ws ~> @@R_Level3)
  | R_Level3 => (@@R_Level2 ~> (PStar (@@R_req_ws ~> @@R_Comparison)))
  | R_Comparison => (@@R_CompareOp ~> @@R_req_ws ~> @@R_Level2)
  | R_CompareOp => ((PLit "==") // (PLit "!=") // (PLit "<=") // (PLit ">=") // (PLit ">") // (PLit "<") // (PLit ">"))
  | R_Level2 => (@@R_Level1 ~> (PStar (@@R_req_ws ~> (@@R_Addition // @@R_Subtraction))))
  | R_Addition => ((PLit "+") ~> @@R_req_ws ~> @@R_Level1)
  | R_Subtraction => ((PLit "-") ~> @@R_req_ws ~> @@R_Level1)
  | R_Level1 => (@@R_Level0 ~> (PStar (@@R_req_ws ~> (@@R_Multiplication // @@R_Division // @@R_Modulo))))
  | R_Multiplication => ((PLit "*") ~> @@R_req_ws ~> @@R_Level0)
  | R_Division => ((PLit "/") ~> @@R_req_ws ~> @@R_Level0)
  | R_Modulo => ((PLit "%") ~> @@R_req_ws ~> @@R_Level0)
  | R_Level0 => (@@R_IP // @@R_String // @@R_Number // @@R_Boolean // @@R_Undefined // @@R_Nil // @@R_Symbol // @@R_Not // @@R_Substitution // @@R_Merge // @@R_Auto // @@R_Lambda // @@R_Chained)
  | R_Chained => ((@@R_MapMapping // @@R_Sync // @@R_Catch // @@R_Mapping // @@R_FilterList // @@R_FilterMap // @@R_MapSelection // @@R_Selection // @@R_Sum // @@R_List // @@R_Map // @@R_Range // @@R_Grouped // @@R_Reference // @@R_TopIndex) ~> (PStar @@R_ChainedQualifiedExpression))
  | R_ChainedQualifiedExpression => (@@R_ChainedCall // @@R_Currying // @@R_ChainedRef // @@R_ChainedDynRef // @@R_Projection)
  | R_ChainedRef => (@@R_PathComponent ~> @@R_FollowUpRef)
  | R_ChainedDynRef => ((POpt (PLit ".")) ~> @@R_Indices)
  | R_TopIndex => ((PLit ".") ~> @@R_Indices)
  | R_Indices => (@@R_StartList ~> @@R_ExpressionList ~> (PLit "]"))
  | R_Slice => @@R_Range
  | R_Currying => ((PLit "*") ~> @@R_ChainedCall)
  | R_ChainedCall => (@@R_StartArguments ~> (POpt @@R_NameArgumentList) ~> (PLit ")"))
  | R_StartArguments => ((PLit "(") ~> @@R_ws)
  | R_NameArgumentList => (((@@R_NextNameArgument ~> (PStar ((PLit ",") ~> @@R_NextNameArgument))) // @@R_NextExpression) ~> (PStar ((PLit ",") ~> @@R_NextExpression)))
  | R_NextNameArgument => (@@R_ws ~> @@R_Name ~> @@R_ws ~> (PLit "=") ~> @@R_ws ~> @@R_Expression ~> @@R_ws)
  | R_ExpressionList => (@@R_NextExpression ~> (PStar ((PLit ",") ~> @@R_NextExpression)))
  | R_NextExpression => (@@R_Expression ~> (POpt @@R_ListExpansion))
  | R_ListExpansion => ((PLit "...") ~> @@R_ws)
  | R_Projection => ((POpt (PLit ".")) ~> ((PLit "[*]") // @@R_Slice) ~> @@R_ProjectionValue ~> (PStar @@R_ChainedQualifiedExpression))
  | R_ProjectionValue => PEps
  | R_Substitution => ((PLit "*") ~> @@R_Level0)
  | R_Not => ((PLit "!") ~> @@R_ws ~> @@R_Level0)
  | R_Grouped => ((PLit "(") ~> @@R_Expression ~> (PLit ")"))
  | R_Range => (@@R_StartRange ~> (POpt @@R_Expression) ~> @@R_RangeOp ~> (POpt @@R_Expression) ~> (PLit "]"))
  | R_StartRange => (PLit "[")
  | R_RangeOp => (PLit "..")
  | R_Number => ((POpt (PLit "-")) ~> (PSet [("0"%char, "9"%char)]) ~> (PStar (PSet [("0"%char, "9"%char); ("_"%char, "_"%char)])) ~> (POpt ((PLit ".") ~> (PSet [("0"%char, "9"%char)]) ~> (PStar (PSet [("0"%char, "9"%char)])))) ~> (POpt ((PSet [("e"%char, "e"%char); ("E"%char, "E"%char)]) ~> (POpt (PLit "-")) ~> (PSet [("0"%char, "9"%char)]) ~> (PStar (PSet [("0"%char, "9"%char)])))) ~> (PNot (PLit "::")))
  | R_String => ((PLit (ofchars ["034"%char])) ~> (PStar ((PLit (ofchars ["\"%char; "034"%char])) // ((PNot (PLit (ofchars ["034"%char]))) ~> PAny))) ~> (PLit (ofchars ["034"%char])))
  | R_Boolean => ((PLit "true") // (PLit "false"))
  | R_Nil => ((PLit "nil") // (PLit "~"))
  | R_Undefined => (PLit "~~")
  | R_Symbol => ((PLit "$") ~> @@R_Name)
  | R_List => (@@R_StartList ~> (POpt @@R_ExpressionList) ~> (PLit "]"))
  | R_StartList => ((PLit "[") ~> @@R_ws)
  | R_Map => (@@R_CreateMap ~> @@R_ws ~> (POpt @@R_Assignments) ~> (PLit "}"))
  | R_CreateMap => (PLit "{")
  | R_Assignments => (@@R_Assignment ~> (PStar ((PLit ",") ~> @@R_Assignment)))
  | R_Assignment => (@@R_Expression ~> (PLit "=") ~> @@R_Expression)
  | R_Merge => (@@R_RefMerge // @@R_SimpleMerge)
  | R_RefMerge => ((PLit "merge") ~> (PNot (@@R_req_ws ~> @@R_Required)) ~> (POpt (@@R_req_ws ~> (@@R_Replace // @@R_On))) ~> @@R_req_ws ~> @@R_Reference)
  | R_SimpleMerge => ((PLit "merge") ~> (PNot (PLit "(")) ~> (POpt (@@R_req_ws ~> (@@R_Replace // @@R_Required // @@R_On))))
  | R_Replace => (PLit "replace")
  | R_Required => (PLit "required")
  | R_On => ((PLit "on") ~> @@R_req_ws ~> @@R_Name)
  | R_Auto => (PLit "auto")
  | R_Default => PEps
  | R_Sync => ((PLit "sync[") ~> @@R_Level7 ~> ((((@@R_LambdaExpr ~> @@R_LambdaExt) // (@@R_LambdaOrExpr ~> @@R_LambdaOrExpr)) ~> (((PLit "|") ~> @@R_Expression) // @@R_Default)) // (@@R_LambdaOrExpr ~> @@R_Default ~> @@R_Default)) ~> (PLit "]"))
  | R_LambdaExt => ((PLit ",") ~> @@R_Expression)
  | R_LambdaOrExpr => (@@R_LambdaExpr // ((PLit "|") ~> @@R_Expression))
  | R_Catch => ((PLit "catch[") ~> @@R_Level7 ~> @@R_LambdaOrExpr ~> (PLit "]"))
  | R_FilterList => ((PLit "filter[") ~> @@R_Level7 ~> @@R_LambdaOrExpr ~> (PLit "]"))
  | R_FilterMap => ((PLit "filter{") ~> @@R_Level7 ~> @@R_LambdaOrExpr ~> (PLit "}"))
  | R_MapMapping => ((PLit "map{") ~> @@R_Level7 ~> @@R_LambdaOrExpr ~> (PLit "}"))
  | R_Mapping => ((PLit "map[") ~> @@R_Level7 ~> @@R_LambdaOrExpr ~> (PLit "]"))
  | R_MapSelection => ((PLit "select{") ~> @@R_Level7 ~> @@R_LambdaOrExpr ~> (PLit "}"))
  | R_Selection => ((PLit "select[") ~> @@R_Level7 ~> @@R_LambdaOrExpr ~> (PLit "]"))
  | R_Sum => ((PLit "sum[") ~> @@R_Level7 ~> (PLit "|") ~> @@R_Level7 ~> @@R_LambdaOrExpr ~> (PLit "]"))
  | R_Lambda => ((PLit "lambda") ~> (@@R_LambdaRef // @@R_LambdaExpr))
  | R_LambdaRef => (@@R_req_ws ~> @@R_Expression)
  | R_LambdaExpr => (@@R_ws ~> @@R_Params ~> @@R_ws ~> (PLit "->") ~> @@R_Expression)
  | R_Params => ((PLit "|") ~> @@R_StartParams ~> @@R_ws ~> (POpt @@R_Names) ~> (PLit "|"))
  | R_StartParams => PEps
  | R_Names => (@@R_NextName ~> (PStar ((PLit ",") ~> @@R_NextName)) ~> (POpt @@R_DefaultValue) ~> (PStar ((PLit ",") ~> @@R_NextName ~> @@R_DefaultValue)) ~> (POpt @@R_VarParams))
  | R_NextName => (@@R_ws ~> @@R_Name ~> @@R_ws)
  | R_Name => (PPlus (PSet [("a"%char, "z"%char); ("A"%char, "Z"%char); ("0"%char, "9"%char); ("_"%char, "_"%char)]))
  | R_DefaultValue => ((PLit "=") ~> @@R_Expression)
  | R_VarParams => ((PLit "...") ~> @@R_ws)
  | R_Reference => (((@@R_TagPrefix ~> ((PLit ".") // @@R_Key)) // ((POpt (PLit ".")) ~> @@R_Key)) ~> @@R_FollowUpRef)
  | R_TagPrefix => ((((PLit "doc") ~> (PSet [("."%char, "."%char); (":"%char, ":"%char)]) ~> (POpt (PLit "-")) ~> (PPlus (PSet [("0"%char, "9"%char)]))) // @@R_Tag) ~> (PLit "::"))
  | R_Tag => (@@R_TagComponent ~> (PStar ((PSet [("."%char, "."%char); (":"%char, ":"%char)]) ~> @@R_TagComponent)))
  | R_TagComponent => ((PSet [("a"%char, "z"%char); ("A"%char, "Z"%char); ("_"%char, "_"%char)]) ~> (PStar (PSet [("a"%char, "z"%char); ("A"%char, "Z"%char); ("0"%char, "9"%char); ("_"%char, "_"%char)])))
  | R_FollowUpRef => (PStar @@R_PathComponent)
  | R_PathComponent => (((PLit ".") ~> @@R_Key) // ((POpt (PLit ".")) ~> @@R_Index))
  | R_Key => ((PSet [("a"%char, "z"%char); ("A"%char, "Z"%char); ("0"%char, "9"%char); ("_"%char, "_"%char)]) ~> (PStar (PSet [("a"%char, "z"%char); ("A"%char, "Z"%char); ("0"%char, "9"%char); ("_"%char, "_"%char); ("-"%char, "-"%char)])) ~> (POpt ((PLit ":") ~> (PSet [("a"%char, "z"%char); ("A"%char, "Z"%char); ("0"%char, "9"%char); ("_"%char, "_"%char)]) ~> (PStar (PSet [("a"%char, "z"%char); ("A"%char, "Z"%char); ("0"%char, "9"%char); ("_"%char, "_"%char); ("-"%char, "-"%char)])))))
  | R_Index => ((PLit "[") ~> (POpt (PLit "-")) ~> (PPlus (PSet [("0"%char, "9"%char)])) ~> (PLit "]"))
  | R_IP => ((PPlus (PSet [("0"%char, "9"%char)])) ~> (PLit ".") ~> (PPlus (PSet [("0"%char, "9"%char)])) ~> (PLit ".") ~> (PPlus (PSet [("0"%char, "9"%char)])) ~> (PLit ".") ~> (PPlus (PSet [("0"%char, "9"%char)])))
  | R_ws => (PStar (PSet [("032"%char, "032"%char); ("009"%char, "009"%char); ("010"%char, "010"%char); ("013"%char, "013"%char)]))
  | R_req_ws => (PPlus (PSet [("032"%char, "032"%char); ("009"%char, "009"%char); ("010"%char, "010"%char); ("013"%char, "013"%char)]))
  end.
