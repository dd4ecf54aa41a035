-Q theories Verif

theories/Text.v
theories/Event.v
theories/Input.v
theories/Parse.v
theories/Selector.v
theories/Machine.v
theories/Template.v
theories/Api.v
theories/Messages.v
theories/ModelTests.v
theories/DocTests.v
theories/SpecText.v
theories/SpecAttr.v
theories/SpecSelect.v
theories/SpecLocation.v
theories/SpecFile.v
theories/SpecParse.v
theories/SpecRender.v
theories/SpecTree.v
theories/SpecTransform.v
theories/SpecOps.v
theories/TextProofs.v
theories/TextProofs2.v
theories/AttrProofs.v
theories/AttrProofs2.v
theories/SelectProofs.v
theories/LocationProofs.v
theories/FileProofs.v
theories/MiscProofs.v
theories/FileProofs2.v
theories/ParseProofs.v
theories/ParseProofs2.v
theories/ParseProofs3.v
theories/ParseProofs4.v
theories/ParseProofs5.v
theories/ParseProofs6.v
theories/ParseProofs7.v
theories/ParseProofs8.v
theories/ParseProofs9.v
theories/ParseProofs10.v
theories/FuelProofs.v
theories/StreamBase.v
theories/Trace.v
theories/TraceProofs.v
theories/StreamProofs.v
theories/StreamProofs2.v
theories/StreamProofs3.v
theories/PipelineProofs.v
theories/TreeProofs.v
theories/ReachProofs.v
theories/ErrorProofs.v
theories/SelectionProofs.v
theories/OpProofs.v
theories/ApiProofs.v
theories/ApiProofs2.v
theories/Prop_Text.v
theories/Prop_Attr.v
theories/Prop_Select.v
theories/Prop_Misc.v
theories/Prop_Parse.v
theories/Prop_Transform.v
theories/Prop_Selection.v
theories/Prop_Ops.v
theories/SpecSafe.v
theories/SafeProofs.v
theories/SafeProofs2.v
theories/SafeProofs3.v
theories/Prop_Safe.v
theories/RobustProofs.v
theories/Prop_Robust.v
theories/SpecMessages.v
theories/MessageProofs.v
theories/MessageProofs2.v
theories/Prop_Messages.v
theories/SpecDocument.v
theories/ParseProofs11.v
theories/ParseProofs12.v
theories/ParseProofs13.v
theories/ParseProofs14.v
theories/Prop_Document.v
theories/SpecLaws.v
theories/LawProofs.v
theories/LawProofs2.v
theories/LawProofs3.v
theories/Prop_Laws.v
theories/SpecHtml5.v
theories/SpecHtmlSafe.v
theories/SpecEntities.v
theories/SpecCharRef.v
theories/Html5Proofs.v
theories/Html5Proofs2.v
theories/KeepProofs.v
theories/Html5Proofs3.v
theories/Html5Proofs4.v
theories/SpecHtmlRead.v
theories/Html5Proofs5.v
theories/Html5Proofs6.v
theories/Html5Proofs7.v
theories/Prop_Html.v
theories/Depth.v
theories/SpecDepth.v
theories/DepthProofs.v
theories/Prop_Depth.v
theories/SpecOrigin.v
theories/OriginProofs.v
theories/OriginProofs2.v
theories/Prop_Origin.v
theories/CharRefProofs.v
theories/CharRefProofs2.v
theories/Prop_CharRef.v
theories/SpecWording.v
theories/WordingProofs.v
theories/Prop_Wording.v
theories/SpecCost.v
theories/ParseCost.v
theories/CostProofs.v
theories/CostProofs2.v
theories/CostProofs3.v
theories/CostProofs4.v
theories/CostProofs5.v
theories/CostProofs6.v
theories/CostProofs7.v
theories/Prop_Cost.v
theories/MachineCost.v
theories/SpecWork.v
theories/WorkProofs.v
theories/WorkProofs2.v
theories/WorkProofs3.v
theories/WorkProofs4.v
theories/WorkProofs5.v
theories/WorkProofs6.v
theories/WorkProofs7.v
theories/Prop_Work.v
theories/SpecSelectLaws.v
theories/SelectLawProofs.v
theories/SelectLawProofs2.v
theories/SelectLawProofs3.v
theories/Prop_SelectLaws.v
theories/SpecLocal.v
theories/LocalProofs.v
theories/Prop_Local.v
theories/MachineState.v
theories/MachineAgain.v
theories/SpecState.v
theories/StateProofs.v
theories/StateProofs2.v
theories/StateProofs3.v
theories/StateProofs4.v
theories/StateProofs5.v
theories/StateProofs6.v
theories/Prop_State.v
theories/SpecStop.v
theories/StopProofs.v
theories/StopProofs2.v
theories/Prop_Stop.v
theories/SpecMeet.v
theories/MeetProofs.v
theories/Prop_Meet.v
theories/SpecAlike.v
theories/AlikeProofs.v
theories/AlikeProofs2.v
theories/Prop_Alike.v
theories/SpecBroken.v
theories/BrokenProofs.v
theories/BrokenProofs2.v
theories/BrokenProofs3.v
theories/BrokenProofs4.v
theories/Prop_Broken.v
theories/SpecEnd.v
theories/EndProofs.v
theories/Prop_End.v
theories/SpecNatural.v
theories/SpecTime.v
theories/NaturalProofs.v
theories/NaturalProofs2.v
theories/Prop_Natural.v
theories/AgainProofs.v
theories/Prop_Again.v
theories/TimeProofs.v
theories/TimeProofs2.v
theories/Prop_Time.v
theories/SpecMemory.v
theories/MemoryProofs.v
theories/Prop_Memory.v
theories/SpecMemoryState.v
theories/MemoryStateProofs.v
theories/Prop_MemoryState.v
theories/DepthState.v
theories/DepthStateProofs.v
theories/Prop_DepthState.v
theories/SpecEndState.v
theories/EndStateProofs.v
theories/Prop_EndState.v
theories/SpecNaturalState.v
theories/NaturalStateProofs.v
theories/NaturalStateProofs2.v
theories/Prop_NaturalState.v
theories/SpecSafeState.v
theories/SafeStateProofs.v
theories/SafeStateProofs2.v
theories/Prop_SafeState.v
theories/SpecSelectState.v
theories/SelectStateProofs.v
theories/Prop_SelectState.v
theories/SpecRepeatState.v
theories/MoveProofs.v
theories/RepeatStateProofs.v
theories/Prop_RepeatState.v
theories/SpecContentState.v
theories/ContentStateProofs.v
theories/Prop_ContentState.v
theories/ContentsStateProofs.v
theories/Prop_ContentsState.v
theories/OnceStateProofs.v
theories/Prop_OnceState.v
theories/OnceStateProofs2.v
theories/SubselectStateProofs.v
theories/Prop_SubselectState.v
theories/AttrStateProofs.v
theories/Prop_AttrState.v
theories/SpecApplyState.v
theories/ApplyStateProofs.v
theories/Prop_ApplyState.v
