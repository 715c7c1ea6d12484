-Q theories Verif

theories/Base.v
theories/Numbering_Model.v
theories/Numbering_Spec.v
theories/Numbering_Proofs.v
theories/Numbering_Props.v
theories/Duration_Model.v
theories/Duration_Spec.v
theories/Duration_Proofs.v
theories/Duration_Text.v
theories/Duration_Props.v
theories/Pitch_Model.v
theories/Pitch_Spec.v
theories/Pitch_Proofs.v
theories/Pitch_Lang.v
theories/Pitch_Props.v
theories/Transpose_Model.v
theories/Transpose_Spec.v
theories/Transpose_Proofs.v
theories/Transpose_Select.v
theories/Transpose_Props.v
theories/Transpose_Chain.v
theories/Transposedoc_Model.v
theories/Transposedoc_Spec.v
theories/Transposedoc_Proofs.v
theories/Transposedoc_Props.v
theories/Transposedoc_Total.v
theories/Transposedoc_Chain.v
theories/Transposedoc_Select.v
theories/Relative_Transpose.v
theories/Relative_Both.v
theories/Relative_Model.v
theories/Relative_Spec.v
theories/Relative_Proofs.v
theories/Relative_Props.v
theories/Key_Model.v
theories/Key_Spec.v
theories/Key_Proofs.v
theories/Key_Props.v
theories/Datatypes_Model.v
theories/Datatypes_Props.v
theories/Node_Model.v
theories/Node_Spec.v
theories/Node_Proofs.v
theories/Node_Nav.v
theories/Node_More.v
theories/Node_Edits.v
theories/Node_Props.v
theories/Node_Frame.v
theories/Node_Undo.v
theories/Node_History.v
theories/Range_Model.v
theories/Range_Spec.v
theories/Range_Proofs.v
theories/Range_Machine.v
theories/Range_Nodes.v
theories/Range_Extract.v
theories/Range_Member.v
theories/Range_Edit.v
theories/Range_Props.v
theories/Range_Heap.v
theories/Element_Model.v
theories/Element_Spec.v
theories/Element_Proofs.v
theories/Element_Edits.v
theories/Element_Props.v
theories/Element_Part.v
theories/Range_Text.v
theories/Node_Written.v
theories/Build_Model.v
theories/Build_Spec.v
theories/Build_Proofs.v
theories/Build_Props.v
theories/Find_Model.v
theories/Find_Spec.v
theories/Find_Proofs.v
theories/Find_Props.v
theories/Indent_Model.v
theories/Indent_Spec.v
theories/Indent_Proofs.v
theories/Indent_Props.v
theories/Indent_Align.v
theories/Indent_Lines.v
theories/Session_Model.v
theories/Session_Props.v
theories/Indent_Comment.v
theories/Scope_Model.v
theories/Scope_Spec.v
theories/Scope_Props.v
theories/Rhythm_Model.v
theories/Rhythm_Spec.v
theories/Rhythm_Proofs.v
theories/Rhythm_Lists.v
theories/Rhythm_Text.v
theories/Rhythm_Props.v
theories/Time_Model.v
theories/Time_Spec.v
theories/Time_Proofs.v
theories/Time_Props.v
theories/Getter_Model.v
theories/Getter_Spec.v
theories/Getter_Proofs.v
theories/Getter_Props.v
theories/Lookup_Model.v
theories/Lookup_Spec.v
theories/Lookup_Proofs.v
theories/Lookup_Props.v
theories/Vars_Model.v
theories/Vars_Spec.v
theories/Vars_Props.v
theories/Heads_Model.v
theories/Heads_Spec.v
theories/Heads_Props.v
theories/Util_Model.v
theories/Util_Spec.v
theories/Util_Props.v
theories/Spanner_Model.v
theories/Spanner_Spec.v
theories/Spanner_Props.v
theories/Attrs_Model.v
theories/Attrs_Spec.v
theories/Attrs_Props.v
theories/Music_Model.v
theories/Music_Spec.v
theories/Music_Props.v
theories/Read_Model.v
theories/Read_Spec.v
theories/Read_Props.v
theories/Copy_Model.v
theories/Copy_Spec.v
theories/Copy_Props.v
theories/Copy_Dump.v
theories/Scheme_Model.v
theories/Scheme_Spec.v
theories/Scheme_Props.v
theories/Htm_Model.v
theories/Htm_Spec.v
theories/Htm_Props.v
theories/Html_Model.v
theories/Html_Spec.v
theories/Html_Props.v
theories/Latex_Model.v
theories/Latex_Spec.v
theories/Latex_Props.v
theories/Texenv_Model.v
theories/Texenv_Props.v
theories/Cursor_Model.v
theories/Cursor_Spec.v
theories/Cursor_Props.v
theories/Durattr_Model.v
theories/Durattr_Spec.v
theories/Durattr_Props.v
theories/Version_Model.v
theories/Version_Spec.v
theories/Version_Props.v
theories/Keysig_Model.v
theories/Keysig_Spec.v
theories/Keysig_Props.v
theories/Arg_Model.v
theories/Arg_Spec.v
theories/Arg_Props.v
theories/Edit_Model.v
theories/Edit_Spec.v
theories/Edit_Props.v
theories/Unknown_Model.v
theories/Unknown_Spec.v
theories/Unknown_Props.v
theories/Grob_Model.v
theories/Grob_Spec.v
theories/Grob_Props.v
theories/Float_Model.v
theories/Float_Spec.v
theories/Float_Props.v
theories/Abs2rel_Model.v
theories/Abs2rel_Spec.v
theories/Abs2rel_Proofs.v
theories/Abs2rel_Props.v
theories/Markup_Model.v
theories/Markup_Spec.v
theories/Markup_Proofs.v
theories/Markup_Props.v
theories/Signature_Model.v
theories/Signature_Spec.v
theories/Signature_Proofs.v
theories/Signature_Props.v
theories/Convert_Model.v
theories/Convert_Spec.v
theories/Convert_Proofs.v
theories/Convert_Props.v
theories/Dispatch_Model.v
theories/Dispatch_Spec.v
theories/Dispatch_Props.v
theories/Scale_Model.v
theories/Scale_Spec.v
theories/Scale_Proofs.v
theories/Scale_Props.v
theories/Play_Spec.v
theories/Play_Proofs.v
theories/Play_Heard.v
theories/Play_Props.v
theories/Rangenav_Model.v
theories/Rangenav_Spec.v
theories/Rangenav_Proofs.v
theories/Rangenav_Walk.v
theories/Rangenav_Props.v
theories/Rangenav_Setter.v
theories/Rangenav_Slice.v
theories/Words_Model.v
theories/Words_Spec.v
theories/Words_Props.v
theories/Origin_Model.v
theories/Origin_Spec.v
theories/Origin_Props.v
theories/Rangelist_Model.v
theories/Rangelist_Spec.v
theories/Rangelist_Props.v
theories/Pitchable_Model.v
theories/Pitchable_Props.v
theories/Rangenav_Loop.v
theories/Writeback_Model.v
theories/Writeback_Props.v
theories/Writeback_Local.v
theories/Writeback_Remove.v
theories/Writeback_Mixed.v
theories/Rhythmdoc_Model.v
theories/Rhythmdoc_Props.v
theories/Rhythmdoc_Edit.v
theories/Reldoc_Model.v
theories/Reldoc_Props.v
theories/Absdoc_Model.v
theories/Absdoc_Props.v
theories/Settings_Model.v
theories/Settings_Props.v
theories/Rhythm_Again.v
theories/Doctext_Model.v
theories/Doctext_Props.v
