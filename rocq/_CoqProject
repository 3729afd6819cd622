-Q theories Verif
theories/Base/Fld.v
theories/Base/Bits.v
theories/Field/Quad.v
theories/Field/TowerModel.v
theories/Field/TowerProofs.v
theories/Field/TowerBases.v
theories/Field/TowerProps.v
theories/Field/Tables.v
theories/Field/AesModel.v
theories/Field/AesProofs.v
theories/Field/AesProps.v
theories/Field/PackedModel.v
theories/Field/PackedProofs.v
theories/Base/Lists.v
theories/Field/PackedProps.v
theories/Field/SliceModel.v
theories/Field/SliceProps.v
theories/Base/Sums.v
theories/Field/Examples.v
theories/Math/MleSpec.v
theories/Math/MleModel.v
theories/Math/TensorProps.v
theories/Math/MleProofs.v
theories/Math/MleProps.v
theories/Math/SubcubeModel.v
theories/Math/SubcubeProps.v
theories/Math/Fold1b.v
theories/Base/Poly.v
theories/Math/MatrixModel.v
theories/Math/MatrixProps.v
theories/Math/UnivariateModel.v
theories/Math/UnivariateProps.v
theories/Math/PiecewiseModel.v
theories/Math/PiecewiseProps.v
theories/Math/ArithModel.v
theories/Math/ArithProofs.v
theories/Math/ArithOpt.v
theories/Math/ArithTree.v
theories/Math/ArithProps.v
theories/Base/NatBits.v
theories/Ntt/NttSpec.v
theories/Ntt/SubspaceTheory.v
theories/Ntt/SubspaceModel.v
theories/Ntt/SubspaceProps.v
theories/Ntt/TwiddleModel.v
theories/Ntt/TwiddleProofs.v
theories/Ntt/TwiddleProps.v
theories/Ntt/NttModel.v
theories/Ntt/NttProofs.v
theories/Ntt/NttCompose.v
theories/Ntt/NttProps.v
theories/Base/Par.v
theories/Ntt/ParNttModel.v
theories/Ntt/ParNttProofs.v
theories/Ntt/ParNttProps.v
theories/Code/RsModel.v
theories/Code/RsProps.v
theories/Code/FriFoldModel.v
theories/Code/FriFoldProps.v
theories/Transcript/SerModel.v
theories/Transcript/SerProofs.v
theories/Transcript/SerProps.v
theories/Transcript/ChallengerModel.v
theories/Transcript/ChallengerSpec.v
theories/Transcript/ChallengerProps.v
theories/Transcript/ChallengerBinding.v
theories/Transcript/TranscriptModel.v
theories/Transcript/TranscriptProps.v
theories/Base/Chunks.v
theories/Merkle/MerkleModel.v
theories/Merkle/MerkleSpec.v
theories/Merkle/MerkleProofs.v
theories/Merkle/MerkleProps.v
theories/Protocol/Proto.v
theories/Protocol/Soundness.v
theories/Protocol/Complete.v
theories/Protocol/Safe.v
theories/Sumcheck/SumcheckModel.v
theories/Sumcheck/SumcheckSpec.v
theories/Sumcheck/SumcheckProofs.v
theories/Sumcheck/SumcheckSound.v
theories/Sumcheck/BatchProverModel.v
theories/Sumcheck/BatchProverSpec.v
theories/Sumcheck/BatchProverProofs.v
theories/Sumcheck/FrontLoadedOps.v
theories/Sumcheck/SumcheckProps.v
theories/Sumcheck/StateModel.v
theories/Sumcheck/FoldProofs.v
theories/Sumcheck/RoundProofs.v
theories/Sumcheck/StateProofs.v
theories/Sumcheck/RegularModel.v
theories/Sumcheck/RegularProofs.v
theories/Sumcheck/RegularProps.v
theories/Sumcheck/EqIndModel.v
theories/Sumcheck/EqIndProps.v
theories/Sumcheck/ZerocheckModel.v
theories/Sumcheck/ZerocheckProofs.v
theories/Sumcheck/ZerocheckProps.v
theories/Utils/SortModel.v
theories/Utils/SortProps.v
theories/Gkr/GpaModel.v
theories/Gkr/GpaProps.v
theories/Protocol/Conform.v
theories/Gkr/GpaProverModel.v
theories/Gkr/GpaComplete.v
theories/Gkr/ExpModel.v
theories/Gkr/ExpSpec.v
theories/Gkr/ExpProofs.v
theories/Gkr/ExpProps.v
theories/Transparent/TransparentModel.v
theories/Transparent/TransparentProps.v
theories/Transparent/TowerBasisProps.v
theories/Transparent/ShiftModel.v
theories/Transparent/ShiftProps.v
theories/Utils/CheckedModel.v
theories/Utils/CheckedProps.v
theories/Utils/ContainersModel.v
theories/Utils/ContainersProps.v
theories/Utils/GraphModel.v
theories/Utils/GraphProps.v
theories/Compute/AllocModel.v
theories/Compute/AllocProps.v
theories/Fri/FriModel.v
theories/Fri/FriParamsProps.v
theories/Fri/FriFolds.v
theories/Fri/FriProofs.v
theories/Fri/FriProps.v
theories/Fri/FriSound.v
theories/Compute/CircuitPolyModel.v
theories/Compute/CircuitPolyProps.v
theories/Compute/CpuModel.v
theories/Compute/CpuProps.v
theories/Compute/KernelProps.v
theories/Piop/MetaModel.v
theories/Piop/MetaProps.v
theories/Piop/PiopModel.v
theories/Piop/PiopLayout.v
theories/Piop/PiopSound.v
theories/Piop/PiopProps.v
theories/Cs/ChannelModel.v
theories/Cs/ChannelProps.v
theories/M3/TableModel.v
theories/M3/GadgetModel.v
theories/M3/TableProofs.v
theories/M3/BitLemmas.v
theories/M3/AddProps.v
theories/M3/WideProps.v
theories/M3/MulProps.v
theories/M3/BarrelProps.v
theories/M3/GadgetEx.v
theories/M3/SignedModel.v
theories/M3/SignedProps.v
theories/M3/SignedDiv.v
theories/M3/SignedEx.v
theories/RingSwitch/TensorModel.v
theories/RingSwitch/TransposeProps.v
theories/RingSwitch/TensorProofs.v
theories/RingSwitch/AlgebraProps.v
theories/RingSwitch/TowerExt.v
theories/RingSwitch/SwitchModel.v
theories/RingSwitch/SwitchEqProps.v
theories/RingSwitch/SwitchSpec.v
theories/RingSwitch/SwitchProofs.v
theories/RingSwitch/SwitchSound.v
theories/RingSwitch/SwitchComplete.v
theories/RingSwitch/SwitchExamples.v
theories/Evalcheck/OracleModel.v
theories/Evalcheck/EvalModel.v
theories/Evalcheck/EvalSpec.v
theories/Evalcheck/EvalMle.v
theories/Evalcheck/EvalProofs.v
theories/Evalcheck/EvalReduce.v
theories/Evalcheck/EvalSound.v
theories/Evalcheck/EvalExtend.v
theories/Evalcheck/EvalComplete.v
theories/Evalcheck/EvalSafe.v
theories/Evalcheck/OracleProps.v
theories/Evalcheck/EvalExamples.v
theories/Evalcheck/SymbolicModel.v
theories/Evalcheck/SymbolicProps.v
theories/Cs/BalanceAlg.v
theories/Cs/FlushModel.v
theories/Cs/FlushProofs.v
theories/Cs/FlushProps.v
theories/Evalcheck/GreedyModel.v
theories/Evalcheck/GreedyComp.v
theories/Evalcheck/GreedyWork.v
theories/Evalcheck/GreedySets.v
theories/Evalcheck/GreedyStages.v
theories/Evalcheck/GreedyProps.v
theories/Evalcheck/GreedyExamples.v
theories/Cs/FlushShape.v
theories/Cs/VerifyComp.v
theories/Cs/VerifyModel.v
theories/Cs/VerifyFlush.v
theories/Cs/VerifyReduce.v
theories/Cs/VerifyExp.v
theories/Cs/VerifyZero.v
theories/Cs/VerifyProps.v
theories/Cs/TotalModel.v
theories/Cs/TotalProps.v
theories/M3/CompileModel.v
theories/M3/CompileSpec.v
theories/M3/RemapProofs.v
theories/M3/BuilderProofs.v
theories/M3/CompileProofs.v
theories/M3/TranslateProofs.v
theories/M3/SystemProofs.v
theories/M3/CellProofs.v
theories/M3/EncodeProofs.v
theories/M3/CompileProps.v
theories/M3/CompileExamples.v
theories/M3/LookupModel.v
theories/M3/LookupBits.v
theories/M3/LookupProps.v
theories/M3/LookupComplete.v
theories/M3/LookupExamples.v
theories/M3/KeccakModel.v
theories/M3/KeccakProps.v
theories/M3/KeccakLookup.v
theories/M3/ShaModel.v
theories/M3/ShaProps.v
theories/M3/ShaPopulate.v
theories/Cs/ValidateModel.v
theories/Cs/ValidateProofs.v
theories/Cs/ValidateProps.v
theories/Cs/ValidateExamples.v
theories/Evalcheck/LevelProps.v
