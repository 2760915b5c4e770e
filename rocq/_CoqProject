-Q theories Verif
theories/Base.v
theories/M_Pitch.v
theories/M_Duration.v
theories/M_Percent.v
theories/M_Scalar.v
theories/M_Bar.v
theories/M_Note.v
theories/M_Undo.v
theories/S_Pitch.v
theories/S_Percent.v
theories/S_Note.v
theories/S_Undo.v
theories/P_Base.v
theories/P_Pitch.v
theories/P_Percent.v
theories/P_Note.v
theories/P_Undo.v
theories/P_Marks.v
theories/T_Pitch.v
theories/T_Values.v
theories/T_Marks.v
theories/M_Store.v
theories/M_Tuple.v
theories/M_Models.v
theories/M_Project.v
theories/S_Project.v
theories/P_Store.v
theories/P_Query.v
theories/P_Replenish.v
theories/P_Edit.v
theories/P_History.v
theories/P_Back.v
theories/T_Project.v
theories/S_Tuple.v
theories/P_Tuple.v
theories/T_Tuple.v
theories/M_Text.v
theories/S_Text.v
theories/P_Text.v
theories/P_IntError.v
theories/S_Format.v
theories/T_Text.v
theories/T_Format.v
theories/M_Repeat.v
theories/S_Repeat.v
theories/P_Chunk.v
theories/P_Machine.v
theories/P_Errors.v
theories/P_Order.v
theories/P_Jump.v
theories/P_Last.v
theories/T_Chunk.v
theories/T_Repeat.v
theories/S_Score.v
theories/T_Score.v
theories/M_Json.v
theories/S_Json.v
theories/P_Json.v
theories/P_Savable.v
theories/S_Accept.v
theories/P_Accept.v
theories/T_Json.v
theories/T_Accept.v
theories/M_Disk.v
theories/S_Disk.v
theories/P_Disk.v
theories/T_Disk.v
theories/S_Edit.v
theories/T_Note.v
theories/M_Event.v
theories/S_Event.v
theories/T_Event.v
theories/M_Equal.v
theories/T_Equal.v
theories/M_New.v
theories/T_New.v
theories/T_Exact.v
theories/T_Times.v
theories/T_Session.v
theories/T_First.v
theories/T_Paste.v
theories/M_Show.v
theories/T_Show.v
theories/S_Safe.v
theories/T_Safe.v
theories/S_Panic.v
theories/P_Panic.v
theories/T_Panic.v
theories/S_Reading.v
theories/P_Reading.v
theories/T_Reading.v
theories/S_Effect.v
theories/P_Effect.v
theories/T_Effect.v
theories/P_Together.v
theories/T_Together.v
theories/S_Lines.v
theories/P_Lines.v
theories/T_Lines.v
theories/S_Stretch.v
theories/P_Stretch.v
theories/T_Stretch.v
theories/S_Goto.v
theories/T_Goto.v
theories/S_Trace.v
theories/T_Trace.v
theories/P_Heard.v
theories/T_Heard.v
theories/S_Number.v
theories/T_Number.v
theories/M_Bin.v
theories/S_Bin.v
theories/P_Bin.v
theories/T_Bin.v
theories/S_Unheard.v
theories/T_Unheard.v
theories/S_Twice.v
theories/T_Twice.v
theories/S_Ending.v
theories/T_Ending.v
theories/S_Silent.v
theories/T_Silent.v
theories/X_Repeat.v
theories/X_Values.v
theories/X_Project.v
theories/S_Join.v
theories/T_Join.v
theories/S_Moment.v
theories/T_Moment.v
theories/S_Further.v
theories/T_Further.v
theories/S_Move.v
theories/T_Move.v
theories/S_Write.v
theories/T_Write.v
theories/S_Triplet.v
theories/T_Triplet.v
theories/S_Return.v
theories/T_Return.v
theories/S_Order.v
theories/T_Order.v
theories/S_Blank.v
theories/T_Blank.v
theories/T_Hand.v
theories/S_Enter.v
theories/T_Enter.v
theories/S_Start.v
theories/T_Start.v
theories/S_Carry.v
theories/T_Carry.v
theories/S_Lift.v
theories/T_Lift.v
theories/S_Anew.v
theories/T_Anew.v
theories/T_Whole.v
theories/S_Press.v
theories/T_Press.v
