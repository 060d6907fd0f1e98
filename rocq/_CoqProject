-Q theories Verif
theories/Base.v
theories/BaseLemmas.v
theories/Node.v
theories/Tree.v
theories/NodeProofs.v
theories/SpanProofs.v
theories/Compile.v
theories/Eval.v
theories/CompileProofs.v
theories/EvalProofs.v
theories/EvalTop.v
theories/Deriv.v
theories/DerivSpec.v
theories/Machine.v
theories/DerivProofs.v
theories/DerivTop.v
theories/PlanSpec.v
theories/Instances.v
theories/DerivReach.v
theories/PropEval.v
theories/Utils.v
theories/UtilsProofs.v
theories/PropUtils.v
theories/Simplify.v
theories/FoldProofs.v
theories/CombineProofs.v
theories/CombineValue.v
theories/PropSimplify.v
theories/Rng.v
theories/Registry.v
theories/PropRegistry.v
theories/Lit.v
theories/Mutation.v
theories/MutationProofs.v
theories/RotateProofs.v
theories/PropMutation.v
theories/Complexity.v
theories/ComplexitySpec.v
theories/ComplexityProofs.v
theories/PropComplexity.v
theories/Num.v
theories/Member.v
theories/SortProofs.v
theories/PropHof.v
theories/Selection.v
theories/SelectionProofs.v
theories/PropSelection.v
theories/PropStats.v
theories/Conditioning.v
theories/PropConditioning.v
theories/Dataset.v
theories/PropDataset.v
theories/Loss.v
theories/PropLoss.v
theories/Optim.v
theories/PropOptim.v
theories/PropOptimTotal.v
theories/ConstOpt.v
theories/PropConstOpt.v
theories/Evolution.v
theories/Frames.v
theories/PropEvolution.v
theories/Search.v
theories/PropSearch.v
theories/PropIds.v
theories/Ready.v
theories/Invariant.v
theories/PropWhole.v
theories/PropBest.v
theories/PropExchange.v
theories/PropCosts.v
theories/PropHall.v
theories/PropSchedule.v
theories/PropPanic.v
theories/PropLive.v
theories/Builtin.v
theories/RealOps.v
theories/PropReal.v
theories/PropGradient.v
theories/PropLossGrad.v
theories/PropVary.v
theories/PropAccept.v
theories/PropEvals.v
theories/PropPhases.v
theories/PropQuasi.v
theories/PropLine.v
theories/PropFit.v
theories/PropRestart.v
theories/Metrics.v
theories/PropMetrics.v
theories/Poisson.v
theories/PropPoisson.v
theories/PropStirling.v
theories/Display.v
theories/PropDisplay.v
theories/Wasm.v
theories/PropWasm.v
theories/Strings.v
theories/PropStrings.v
theories/Session.v
theories/PropSession.v
theories/Factor.v
theories/PropFactor.v
theories/PropComplete.v
theories/Options.v
theories/PropOptions.v
theories/PropDefaults.v
theories/PropReachable.v
theories/PropKnobs.v
theories/Simulate.v
theories/View.v
theories/ViewSearch.v
theories/PropView.v
theories/PropMeans.v
theories/Ieee.v
theories/PropIeee.v
theories/PropIeeeStats.v
theories/PropNonneg.v
theories/PropNonnegSearch.v
theories/PropIeeeTemp.v
theories/PropDraw.v
