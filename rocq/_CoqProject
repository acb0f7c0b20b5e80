-Q theories Verif
theories/Base.v
theories/Wires.v
theories/WiresSpec.v
theories/WiresLemmas.v
theories/WiresMatmul.v
theories/WiresLabels.v
theories/WiresProps.v
theories/WiresAdj.v
theories/Tensor.v
theories/Contract.v
theories/ContractAssoc.v
theories/CompAdj.v
theories/RShift.v
theories/ContractEx.v
theories/CircuitContract.v
theories/CircuitEx.v
theories/BranchBound.v
theories/PathGraph.v
theories/Heuristics.v
theories/FockShapes.v
theories/RootField.v
theories/Series.v
theories/Vanilla.v
theories/ComplexRF.v
theories/VanillaProps.v
theories/Gradients.v
theories/GradProps.v
theories/Steps.v
theories/Binomial.v
theories/BinomialProps.v
theories/Beamsplitter.v
theories/BeamsplitterProps.v
theories/RealDer.v
theories/GateLattice.v
theories/GateProps.v
theories/FastDiagonal.v
theories/FastDiagonalProps.v
theories/Autoshape.v
theories/Argsort.v
theories/Simplify.v
theories/BatchStr.v
theories/Pairing.v
theories/Settings.v
theories/ParamSet.v
theories/Cache.v
theories/Samplers.v
theories/CMat.v
theories/Expm.v
theories/Optimizer.v
theories/ArrayOps.v
theories/LabMisc.v
theories/LabGates.v
theories/GaussInt.v
theories/Serialize.v
theories/MMEinsum.v
theories/GammaPS.v
theories/CExp.v
theories/GateSym.v
theories/BargSym.v
theories/Compose.v
theories/GateTriples.v
theories/ChanAlg.v
theories/PosDef.v
theories/ChanHat.v
theories/Channels.v
theories/ChanLaws.v
theories/ChanPhys.v
theories/Stellar.v
theories/StellarFock.v
theories/TransInv.v
theories/Prefactor.v
theories/HermAlg.v
theories/PolyExp.v
theories/PolyExpOps.v
theories/PolyExpJoin.v
theories/States.v
theories/KetPhys.v
theories/PolyExpAdd.v
theories/Wigner.v
theories/PhaseSpace.v
theories/CompactDiag.v
theories/CompactLeftover.v
theories/CompactProps.v
theories/GateGrad.v
theories/Schwinger.v
theories/ApplyBS.v
theories/Expect.v
theories/ExpectProps.v
theories/Norms.v
theories/QuadLabels.v
theories/QuadWave.v
theories/QuadProps.v
theories/TraceDecay.v
theories/TraceScalar.v
theories/TraceSpect.v
theories/TraceMx.v
theories/TraceProps.v
theories/CompSum.v
theories/CompSumProps.v
theories/StellarDM.v
theories/StellarMixed.v
theories/Fidelity.v
theories/Overlap.v
theories/Entropy.v
theories/RingSeries.v
theories/Sauron.v
theories/CircuitBuild.v
theories/Damping.v
theories/Kraus.v
