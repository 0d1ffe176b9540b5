-Q theories Verif
theories/Base.v
theories/PyStr.v
theories/Util.v
theories/UtilProofs.v
theories/Regex.v
theories/Parse.v
theories/ParseProofs.v
theories/ParseProofs2.v
theories/PropUtilLemmas.v
theories/PropUtil.v
theories/Term.v
theories/TermProofs.v
theories/PropTerm.v
theories/Num.v
theories/Wigner.v
theories/Hyperfine.v
theories/HyperfineProofs.v
theories/PropHyperfine.v
theories/Graph.v
theories/Rules.v
theories/Atom.v
theories/GraphProofs.v
theories/AtomInv.v
theories/AtomSafe.v
theories/AtomSafe2.v
theories/AtomSafe3.v
theories/AtomSafe4.v
theories/DfsProofs.v
theories/AtomSafe5.v
theories/AtomSafe6.v
theories/AtomLevels.v
theories/AtomKeep.v
theories/AtomPaths.v
theories/AtomHist.v
theories/AtomEnergy.v
theories/AtomAlias.v
theories/AtomSub.v
theories/AtomExample.v
theories/AtomNames.v
theories/AtomFresh.v
theories/PropSublevels.v
theories/RulesProofs.v
theories/AtomTrans.v
theories/WignerProofs.v
theories/PropTransitions.v
theories/AtomEnforce.v
theories/AtomEnforce2.v
theories/AtomEnforce3.v
theories/PropEnforce.v
theories/AtomEnforce4.v
theories/FloatInt.v
theories/PropFloat.v
theories/WignerOne.v
theories/WignerSym.v
theories/StrengthSums.v
theories/AtomStrength.v
theories/StrengthPos.v
theories/PropStrength.v
theories/Strengths.v
theories/WignerZero.v
theories/StrengthProofs.v
theories/PropTensor.v
theories/AtomOrder.v
theories/AtomDecay.v
theories/PropDecay.v
theories/Grotrian.v
theories/GrotrianProofs.v
theories/PropRender.v
theories/Lineshapes.v
theories/PropLineshapes.v
theories/IO.v
theories/PropIO.v
theories/Tables.v
theories/PropTables.v
theories/Nist.v
theories/PropNist.v
theories/Views.v
theories/PropViews.v
theories/WignerOrth.v
theories/WignerNorm.v
theories/Coupling.v
theories/WignerNine.v
theories/CouplingProofs.v
theories/CouplingList.v
theories/CouplingTerms.v
theories/PropCoupling.v
theories/AtomQuad.v
theories/PropQuad.v
theories/Environment.v
theories/PropEnvironment.v
theories/WignerClebsch.v
theories/PropTensorSums.v
theories/PropPolarisation.v
theories/Spectra.v
theories/PropSpectra.v
theories/FreqTable.v
theories/PropFreqTable.v
theories/DictView.v
theories/PropDictView.v
theories/DrawLevels.v
theories/PropDrawLevels.v
theories/Isotopes.v
theories/PropIsotopes.v
theories/PropTrKeys.v
theories/Render.v
theories/PropRenderAll.v
theories/PropLooking.v
theories/Cache.v
theories/PropCache.v
theories/PropStay.v
theories/PropLocal.v
theories/Restrict.v
theories/PropRestrict.v
theories/PropAssign.v
theories/Sequence.v
theories/PropSequence.v
theories/Printing.v
theories/PropPrinting.v
theories/FloatRound.v
theories/PropRound.v
theories/Units.v
theories/PropUnits.v
theories/PropHfDecay.v
theories/PropTrAlias.v
theories/PropRoundSub.v
theories/PropFailed.v
theories/PropRoundDecay.v
theories/PropOrder.v
theories/AtomSame.v
theories/PropBuild.v
theories/PropAliasKeys.v
theories/PropCentre.v
theories/AtomSib.v
theories/PropLink.v
theories/PropParams.v
theories/PropAffine.v
theories/PropRates.v
theories/PropAnchor.v
theories/PropHang.v
theories/PropSpecies.v
theories/PropPipeline.v
theories/PropGross.v
theories/PropHash.v
