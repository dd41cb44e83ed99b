-Q theories Verif
theories/Base.v
theories/Num.v
theories/M_Mat.v
theories/M_Util.v
theories/M_Fasterpam.v
theories/M_Pam.v
theories/M_Alternating.v
theories/M_ParFasterpam.v
theories/M_Silhouette.v
theories/M_Msc.v
theories/M_Pammedsil.v
theories/M_Pamsil.v
theories/M_Dynmsc.v
theories/M_Debug.v
theories/Inst.v
theories/Hoare.v
theories/Spec.v
theories/SpecFacts.v
theories/Laws.v
theories/PamShape.v
theories/PamExact.v
theories/Reference.v
theories/LocalSearch.v
theories/FpFacts.v
theories/ChooseFacts.v
theories/PamFacts.v
theories/BuildFacts.v
theories/AltFacts.v
theories/ParFacts.v
theories/FpMain.v
theories/PamMain.v
theories/SortFacts.v
theories/SilFacts.v
theories/MscShape.v
theories/MscExact.v
theories/MscFacts.v
theories/MscK2.v
theories/MscMain.v
theories/BuildMsc.v
theories/PamsilFacts.v
theories/DynShape.v
theories/DynFacts.v
theories/DynExact.v
theories/LtFacts.v
theories/FloatFacts.v
theories/FloatMain.v
theories/DebugFacts.v
theories/Bounded.v
theories/FloatExact.v
theories/FloatRound.v
theories/FloatSil.v
theories/FloatLoss.v
theories/Adapter.v
theories/Approx.v
theories/BoundedMain.v
theories/Ex.v
theories/P_Fasterpam.v
theories/P_Pam.v
theories/P_Silhouette.v
theories/P_Msc.v
theories/P_MscBuild.v
theories/P_Dynmsc.v
theories/P_Pamsil.v
theories/P_Adapter.v
theories/P_Float.v
theories/P_Debug.v
theories/P_Bounded.v
theories/P_Approx.v
theories/P_Rounding.v
theories/P_Panics.v
theories/P_Restart.v
theories/RefFacts.v
theories/P_Reference.v
theories/ReferenceDyn.v
theories/DynRef.v
theories/P_RefDyn.v
theories/Replay.v
theories/Term.v
theories/TermMsc.v
theories/TermFloat.v
theories/P_Term.v
theories/FloatFmt.v
theories/FloatSwap.v
theories/FloatPar.v
theories/FloatBuild.v
theories/FloatQuality.v
theories/P_FloatOpt.v
theories/P_ParFloat.v
theories/FloatMsc.v
theories/FloatPass.v
theories/FloatMsc2.v
theories/FloatMono.v
theories/P_FloatMsc.v
theories/P_FloatBuild.v
theories/FloatBuildMsc.v
theories/FloatDyn.v
theories/FloatSilErr.v
theories/FloatPamsil.v
theories/P_FloatBuildMsc.v
theories/P_FloatPamsil.v
theories/Float32.v
theories/P_Float32.v
theories/Float32Loss.v
theories/P_Float32Loss.v
theories/TermDyn.v
theories/P_TermDyn.v
theories/M_CheckedMsc.v
theories/RelN.v
theories/P_Types.v
theories/FloatSep.v
theories/P_FloatSep.v
theories/FloatSepMsc.v
theories/P_FloatSepMsc.v
theories/SpecGraph.v
theories/M_Orlib.v
theories/OrlibFacts.v
theories/P_Orlib.v
theories/FloatSqrt.v
theories/SpecMnist.v
theories/M_Mnist.v
theories/MnistFacts.v
theories/Perturb.v
theories/P_Mnist.v
theories/P_Perturb.v
theories/M_Bench.v
theories/P_Bench.v
theories/M_Checked.v
theories/BoundedChk.v
theories/CheckedFacts.v
theories/P_Checked.v
theories/Groups.v
theories/FloatPam.v
theories/GroupPass.v
theories/P_Groups.v
theories/P_FloatGroups.v
theories/MscAny.v
theories/GroupSil.v
theories/P_Evaluate.v
theories/M_Cost.v
theories/CostFacts.v
theories/CostBounds.v
theories/CostExact.v
theories/P_Cost.v
theories/SilSym.v
theories/P_SilSym.v
theories/M_Cost2.v
theories/CostMore.v
theories/CostMore2.v
theories/P_Cost2.v
theories/P_CheckedMsc.v
theories/P_IntSil.v
theories/P_IntSilMachine.v
theories/M_CheckedSil.v
theories/CheckedSilFacts.v
theories/P_CheckedSil.v
theories/Greedy.v
theories/P_Greedy.v
theories/GroupMsc.v
theories/P_GroupsMsc.v
theories/GroupDyn.v
theories/P_GroupsDyn.v
theories/Nested.v
theories/P_Nested.v
theories/AllMedoids.v
theories/P_AllMedoids.v
theories/Repeats.v
theories/P_Repeats.v
theories/NearlyAll.v
theories/P_NearlyAll.v
theories/IterLimit.v
theories/P_IterLimit.v
theories/Twins.v
theories/P_Twins.v
theories/MedOrder.v
theories/P_MedOrder.v
theories/P_Outliers.v
theories/P_Grow.v
theories/P_Star.v
theories/P_Parts.v
theories/P_Copies.v
theories/P_Consistent.v
theories/P_Rich.v
theories/P_Repeat.v
