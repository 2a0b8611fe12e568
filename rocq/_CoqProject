-Q theories Verif
theories/Lib/Arr.v
theories/Lib/Rev.v
theories/Lib/QState.v
theories/Lib/Trace.v
theories/BigInt/BigIntSpec.v
theories/BigInt/BigIntModel.v
theories/BigInt/BigIntLemmas.v
theories/BigInt/BigIntArith.v
theories/BigInt/BigIntBits.v
theories/BigInt/BigIntDiv.v
theories/BigInt/BigIntKnuth.v
theories/BigInt/BigIntDivTop.v
theories/BigInt/BigIntProperties.v
theories/ModTools/ModToolsModel.v
theories/ModTools/ModToolsProofs.v
theories/ModTools/ModToolsProperties.v
theories/Adders/CuccaroModel.v
theories/Adders/CuccaroProofs.v
theories/Adders/GidneyModel.v
theories/Adders/GidneyProofs.v
theories/Adders/AddersSpec.v
theories/Adders/AddersWrap.v
theories/Adders/AddersProperties.v
theories/Lib/CliffordT.v
theories/Synth/SynthModel.v
theories/Synth/SynthProofs.v
theories/Synth/SynthProperties.v
theories/Compare/CompareModel.v
theories/Compare/CompareSpec.v
theories/Compare/CompareProofs.v
theories/Compare/CompareProperties.v
theories/Operators/PauliModel.v
theories/Operators/PauliSpec.v
theories/Operators/PauliProofs.v
theories/Operators/CommuteProofs.v
theories/Operators/GroupModel.v
theories/Operators/GroupProofs.v
theories/Operators/FermiModel.v
theories/Operators/FermiSpec.v
theories/Operators/FermiProofs.v
theories/Operators/OpProofs.v
theories/Operators/OperatorsProperties.v
theories/Passes/PassModel.v
theories/Passes/PassSpec.v
theories/Passes/PassProofs.v
theories/Passes/ZeroProofs.v
theories/Passes/PassProperties.v
theories/Passes/FuseModel.v
theories/Passes/FuseSpec.v
theories/Passes/FuseRules.v
theories/Passes/FuseProofs.v
theories/Passes/FuseDag.v
theories/Passes/FuseEmit.v
theories/Passes/F17.v
theories/Passes/FuseProperties.v
theories/Interface/BatchModel.v
theories/Interface/BatchSpec.v
theories/Interface/BatchProofs.v
theories/Interface/ResultModel.v
theories/Interface/ResultSpec.v
theories/Interface/ResultProofs.v
theories/Interface/BatchStable.v
theories/Interface/BatchProperties.v
theories/Interface/ResultProperties.v
theories/Commuting/Gf2Model.v
theories/Commuting/Gf2Spec.v
theories/Commuting/Gf2Proofs.v
theories/Commuting/Gf2Properties.v
theories/Commuting/BasisModel.v
theories/Commuting/BasisSpec.v
theories/Commuting/BasisProofs.v
theories/Commuting/BasisMain.v
theories/Commuting/DiagModel.v
theories/Commuting/DiagSpec.v
theories/Commuting/PauliAct.v
theories/Commuting/DiagProofs.v
theories/Commuting/DiagMain.v
theories/Commuting/DiagProperties.v
theories/ContFrac/CFSpec.v
theories/ContFrac/CFModel.v
theories/ContFrac/CFProofs.v
theories/ContFrac/CFProperties.v
theories/BigMod/BigModModel.v
theories/BigMod/BigModProofs.v
theories/BigMod/BigModProperties.v
theories/Shor/ShorModel.v
theories/Shor/ShorSpec.v
theories/Shor/ShorProofs.v
theories/Shor/Fermat.v
theories/Shor/RSAModel.v
theories/Shor/RSAProofs.v
theories/Shor/ShorProperties.v
theories/Jlist/JlistModel.v
theories/Jlist/JlistSpec.v
theories/Jlist/JlistProofs.v
theories/Jlist/JlistProperties.v
theories/Toposort/TopoModel.v
theories/Toposort/TopoSpec.v
theories/Toposort/TopoProofs.v
theories/Toposort/AncProofs.v
theories/Toposort/AllocProofs.v
theories/Toposort/TopoProperties.v
theories/PermDag/PermModel.v
theories/PermDag/PermSpec.v
theories/PermDag/PermProofs.v
theories/PermDag/AmpSpec.v
theories/PermDag/AmpProofs.v
theories/PermDag/TypeModel.v
theories/PermDag/TypeSpec.v
theories/PermDag/TypeProofs.v
theories/PermDag/PermProperties.v
theories/Axes/AxesModel.v
theories/Axes/AxesSpec.v
theories/Axes/AxesProofs.v
theories/Axes/AxesProperties.v
theories/SimReorder/SimModel.v
theories/SimReorder/SimSpec.v
theories/SimReorder/SimProofs.v
theories/SimReorder/SimProperties.v
theories/Detectors/DetModel.v
theories/Detectors/DetSpec.v
theories/Detectors/DetProofs.v
theories/Detectors/DetProperties.v
theories/Costs/CostsModel.v
theories/Costs/CostsSpec.v
theories/Costs/CostsProofs.v
theories/Costs/CostsProperties.v
theories/Append/AppendModel.v
theories/Append/AppendSpec.v
theories/Append/AppendProofs.v
theories/Append/AppendProperties.v
theories/Inverse/InvModel.v
theories/Inverse/InvSpec.v
theories/Inverse/InvProofs.v
theories/Inverse/InvProperties.v
theories/QFloat/QFModel.v
theories/QFloat/QFSpec.v
theories/QFloat/QFProofs.v
theories/QFloat/SbpProofs.v
theories/QFloat/QFProperties.v
theories/Iterables/IterModel.v
theories/Iterables/IterSpec.v
theories/Iterables/IterProofs.v
theories/Iterables/ShiftProofs.v
theories/Iterables/DemuxProofs.v
theories/Iterables/IterProperties.v
theories/Mcx/McxModel.v
theories/Mcx/McxSpec.v
theories/Mcx/McxProofs.v
theories/Mcx/HybridProofs.v
theories/Mcx/RevExec.v
theories/Mcx/TreeProofs.v
theories/Mcx/CcaProofs.v
theories/Mcx/GateProofs.v
theories/Mcx/AncillaProofs.v
theories/Mcx/McxProperties.v
theories/Incr/IncrModel.v
theories/Incr/IncrProofs.v
theories/Incr/IncrProperties.v
theories/Gray/GrayModel.v
theories/Gray/GraySpec.v
theories/Gray/GrayProofs.v
theories/Gray/GrayWalk.v
theories/Gray/GrayEmit.v
theories/Gray/GrayFinal.v
theories/Gray/GrayRange.v
theories/Gray/GrayProperties.v
theories/CtrlOps/CtrlModel.v
theories/CtrlOps/CtrlSpec.v
theories/CtrlOps/CtrlProofs.v
theories/CtrlOps/CtrlComplex.v
theories/CtrlOps/CtrlProperties.v
theories/Fourier/FourierModel.v
theories/Fourier/FourierSpec.v
theories/Fourier/RegProofs.v
theories/Fourier/FourierProofs.v
theories/Fourier/FourierFinal.v
theories/Fourier/AdderProofs.v
theories/Fourier/FourierProperties.v
theories/Sbp/SbpModel.v
theories/Sbp/SbpSpec.v
theories/Sbp/EncProofs.v
theories/Sbp/NumProofs.v
theories/Sbp/CircProofs.v
theories/Sbp/SbpProperties.v
theories/Inplace/InplModel.v
theories/Inplace/InplSpec.v
theories/Inplace/MultProofs.v
theories/Inplace/SwapProofs.v
theories/Inplace/BitShiftProofs.v
theories/Inplace/InplProofs.v
theories/Inplace/FactorProofs.v
theories/Inplace/InplFinal.v
theories/Inplace/InplProperties.v
theories/PhasePoly/PhaseModel.v
theories/PhasePoly/PhaseSpec.v
theories/PhasePoly/PhaseProofs.v
theories/PhasePoly/PhaseProperties.v
theories/Hybrid/HybridModel.v
theories/Hybrid/HybridSpec.v
theories/Hybrid/PhasedProofs.v
theories/Hybrid/CoreProofs.v
theories/Hybrid/HybridFinal.v
theories/Hybrid/HybridRun.v
theories/Hybrid/HybridAll.v
theories/Hybrid/HybridProperties.v
theories/Qpe/QpeModel.v
theories/Qpe/QpeSpec.v
theories/Qpe/QpeProofs.v
theories/Qpe/QpeMain.v
theories/Qpe/IqpeProofs.v
theories/Qpe/QpeProperties.v
theories/Qpe/QpeBound.v
theories/Qpe/BoundProofs.v
theories/Qpe/QpeBoundProperties.v
theories/Amplify/AmpModel.v
theories/Amplify/AmpSpec.v
theories/Amplify/UnitaryProofs.v
theories/Amplify/RefProofs.v
theories/Amplify/AmpProofs.v
theories/Amplify/Conj.v
theories/Amplify/AmpComplex.v
theories/Amplify/ReflectProperties.v
theories/Amplify/AmpProperties.v
theories/Amplify/QaeProofs.v
theories/Amplify/QaeProperties.v
theories/Envs/EnvModel.v
theories/Envs/EnvSpec.v
theories/Envs/EnvIns.v
theories/Envs/EnvMeaning.v
theories/Envs/EnvProofs.v
theories/Envs/EnvMain.v
theories/Envs/EnvProperties.v
theories/Grover/GroverModel.v
theories/Grover/GroverSpec.v
theories/Grover/TagProofs.v
theories/Grover/GroverProofs.v
theories/Grover/GroverReal.v
theories/Grover/GroverExact.v
theories/Grover/GroverProperties.v
theories/Switch/SwitchModel.v
theories/Switch/SwitchSpec.v
theories/Switch/BitProofs.v
theories/Switch/SwitchProofs.v
theories/Switch/SwitchFinal.v
theories/Switch/SwitchProperties.v
theories/Lcu/LcuModel.v
theories/Lcu/LcuSpec.v
theories/Lcu/LcuProofs.v
theories/Lcu/OaaProofs.v
theories/Lcu/LcuFinal.v
theories/Lcu/LcuProperties.v
theories/Modular/ModModel.v
theories/Modular/ModSpec.v
theories/Modular/ViewProofs.v
theories/Modular/ModAddProofs.v
theories/Modular/ReduceProofs.v
theories/Modular/MontProofs.v
theories/Modular/MultiplyProofs.v
theories/Modular/InplaceProofs.v
theories/Modular/AddFinal.v
theories/Modular/MulFinal.v
theories/Modular/QqProofs.v
theories/Modular/ModFinal.v
theories/Modular/ModProperties.v
theories/Modular/StaticModel.v
theories/Modular/StaticSpec.v
theories/Modular/RippleProofs.v
theories/Modular/QredcProofs.v
theories/Modular/StaticProofs.v
theories/Modular/StaticProperties.v
theories/Order/OrderModel.v
theories/Order/OrderSpec.v
theories/Order/OrderProofs.v
theories/Order/OrderProperties.v
theories/Division/ThapModel.v
theories/Division/DivModel.v
theories/Division/DivSpec.v
theories/Division/ThapProofs.v
theories/Division/DivProofs.v
theories/Division/DivProofs2.v
theories/Division/DivProofs3.v
theories/Division/DivProperties.v
theories/Division/QDivModel.v
theories/Division/QDivProofs.v
theories/Division/QDivProperties.v
theories/Traced/TracedModel.v
theories/Traced/TracedProofs.v
theories/Traced/TracedProperties.v
theories/StatePrep/PrepModel.v
theories/StatePrep/PrepSpec.v
theories/StatePrep/PrepNum.v
theories/StatePrep/XxyyProofs.v
theories/StatePrep/WProofs.v
theories/StatePrep/BitrevProofs.v
theories/StatePrep/PrepProofs.v
theories/StatePrep/DickeProofs.v
theories/StatePrep/PrepProperties.v
theories/Mixers/MixModel.v
theories/Mixers/MixSpec.v
theories/Mixers/MixProofs.v
theories/Mixers/MixProofs2.v
theories/Mixers/MixProofs3.v
theories/Mixers/MixProperties.v
theories/Lookup/LookModel.v
theories/Lookup/LookSpec.v
theories/Lookup/LookProofs.v
theories/Lookup/LookPprm.v
theories/Lookup/LookDict.v
theories/Lookup/LookProperties.v
theories/Portfolio/PortModel.v
theories/Portfolio/PortSpec.v
theories/Portfolio/PortProofs.v
theories/Portfolio/PortInit.v
theories/Portfolio/PortProperties.v
theories/Qiro/QiroModel.v
theories/Qiro/QiroSpec.v
theories/Qiro/QiroProofs.v
theories/Qiro/QiroCircuits.v
theories/Qiro/QiroProperties.v
theories/Constrained/ConsModel.v
theories/Constrained/ConsSpec.v
theories/Constrained/ConsProofs.v
theories/Constrained/ConsProperties.v
theories/Estimate/EstModel.v
theories/Estimate/EstSpec.v
theories/Estimate/EstProofs.v
theories/Estimate/EstCircuit.v
theories/Estimate/EstProperties.v
theories/Cheb/ChebModel.v
theories/Cheb/ChebSpec.v
theories/Cheb/ChebProofs.v
theories/Cheb/SolveProofs.v
theories/Cheb/UnaryProofs.v
theories/Cheb/ChebProperties.v
theories/Cheb/CksModel.v
theories/Cheb/CksSpec.v
theories/Cheb/CksProofs.v
theories/Cheb/CksProperties.v
