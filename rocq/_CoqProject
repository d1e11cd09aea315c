-Q theories Verif

theories/Base.v
theories/Spec.v
theories/BitsLemmas.v
theories/Combos.v
theories/CombosProofs.v
theories/SpecMath.v
theories/CombosProofs2.v
theories/Math.v
theories/MathProofs.v
theories/MathProofs2.v
theories/Props_Math.v
theories/Circuits.v
theories/CircuitsProofs.v
theories/ShiftProofs.v
theories/MulProofs.v
theories/MulRecProofs.v
theories/Props_Circuits.v
theories/Alu.v
theories/SpecAlu.v
theories/AluProofs.v
theories/AluProofs2.v
theories/Props_Alu.v
theories/Memory.v
theories/SpecMem.v
theories/MemoryProofs.v
theories/MemoryProofs2.v
theories/MemoryProofs3.v
theories/MemoryProofs4.v
theories/MemoryProofs5.v
theories/MemoryProofs6.v
theories/Props_Memory.v
theories/Isa.v
theories/SpecIsa.v
theories/IsaProofs.v
theories/Props_Isa.v
theories/Graph.v
theories/MuxGraph.v
theories/SpecMux.v
theories/MuxGraphProofs.v
theories/MuxGraphProofs2.v
theories/MuxGraphProofs3.v
theories/MuxGraphProofs4.v
theories/Props_Mux.v
theories/FheGraph.v
theories/SpecFhe.v
theories/FheProofs.v
theories/FheProofs2.v
theories/FheProofs3.v
theories/FheProofs4.v
theories/FheProofs5.v
theories/FheProofs6.v
theories/Props_Fhe.v
theories/CircuitProc.v
theories/SpecProc.v
theories/CircuitProcProofs.v
theories/CircuitProcProofs2.v
theories/CircuitProcProofs3.v
theories/CircuitProcProofs4.v
theories/CircuitProcProofs5.v
theories/CircuitProcProofs6.v
theories/Props_Proc.v
theories/Processor.v
theories/SpecCpu.v
theories/ProcessorProofs.v
theories/ProcessorProofs2.v
theories/ProcessorProofs3.v
theories/ProcessorProofs4.v
theories/ProcessorProofs5.v
theories/ProcessorProofs6.v
theories/ProcessorProofs7.v
theories/ProcessorProofs8.v
theories/ProcessorProofs9.v
theories/ProcessorProofs10.v
theories/ProcessorProofs11.v
theories/CpuExamples.v
theories/Props_Cpu.v
theories/Sync.v
theories/SyncProofs.v
theories/Props_Sync.v
theories/FluentInt.v
theories/FluentIntProofs.v
theories/FluentIntProofs2.v
theories/Props_FluentInt.v
theories/Fluent.v
theories/SpecFluent.v
theories/FluentProofs.v
theories/FluentProofs2.v
theories/FluentProofs3.v
theories/FluentProofs4.v
theories/FluentProofs5.v
theories/FluentLib.v
theories/FluentMul.v
theories/FluentMul2.v
theories/FluentMul3.v
theories/FluentMul4.v
theories/Props_Fluent.v
theories/PolyRing.v
theories/Tfhe.v
theories/SpecTfhe.v
theories/TfheProofs.v
theories/TfheProofs2.v
theories/TfheProofs3.v
theories/Props_Tfhe.v
theories/SpecGlwe.v
theories/TfheGlwe.v
theories/TfheGlweProofs.v
theories/TfheGlweProofs2.v
theories/TfheGlweProofs3.v
theories/TfheGlweProofs4.v
theories/Props_Glwe.v
theories/TfheBoot.v
theories/SpecBoot.v
theories/TfheBootProofs.v
theories/TfheBootProofs2.v
theories/TfheBootProofs3.v
theories/TfheBootProofs4.v
theories/Props_Boot.v
theories/TfheTrace.v
theories/SpecTrace.v
theories/TfheTraceProofs.v
theories/TfheTraceProofs2.v
theories/Props_Trace.v
theories/TfheSwitch.v
theories/SpecSwitch.v
theories/TfheSwitchProofs.v
theories/Props_Switch.v
theories/TfheCbs.v
theories/SpecCbs.v
theories/TfheCbsProofs.v
theories/Props_Cbs.v
theories/TfhePfks.v
theories/SpecPfks.v
theories/TfhePfksProofs.v
theories/TfhePfksProofs2.v
theories/TfhePfksProofs3.v
theories/Props_Pfks.v
theories/Dst.v
theories/SpecDst.v
theories/DstProofs.v
theories/Scratch.v
theories/SpecScratch.v
theories/ScratchProofs.v
theories/Props_Dst.v
theories/Eval.v
theories/SpecEval.v
theories/EvalProofs.v
theories/EvalProofs2.v
theories/EvalProofs3.v
theories/EvalProofs4.v
theories/EvalProofs5.v
theories/Props_Eval.v
theories/Fft.v
theories/SpecFft.v
theories/FftProofs.v
theories/FftProofs2.v
theories/FftProofs3.v
theories/FftProofs4.v
theories/FftProofs5.v
theories/FftProofs6.v
theories/FftFloat.v
theories/Props_Fft.v
theories/SpecInstr.v
theories/InstrProofs.v
theories/Props_Instr.v
theories/SpecFftGlwe.v
theories/FftGlwe.v
theories/FftBound.v
theories/FftGlweProofs.v
theories/FftGlweProofs2.v
theories/FftGlweProofs3.v
theories/FftRep.v
theories/SpecFftCbs.v
theories/FftCbs.v
theories/FftCbsProofs.v
theories/FftCbsProofs2.v
theories/FftCbsProofs3.v
theories/Props_FftGlwe.v
theories/Props_FftCbs.v
theories/SpecEvalFft.v
theories/EvalFft.v
theories/EvalFftProofs.v
theories/EvalFftProofs2.v
theories/EvalFftProofs3.v
theories/EvalFftProofs4.v
theories/Props_EvalFft.v
theories/Avx512.v
theories/Avx512Proofs.v
theories/Props_Avx512.v
theories/Serde.v
theories/SpecSerde.v
theories/SerdeProofs.v
theories/Props_Serde.v
theories/PubKey.v
theories/Props_PubKey.v
theories/TorusMisc.v
theories/Props_Torus.v
theories/Stats.v
theories/Props_Stats.v
theories/MuxEval.v
theories/MuxEvalProofs.v
theories/Props_MuxEval.v
theories/SpecMuxOpt.v
theories/MuxOptProofs.v
theories/MuxOptProofs2.v
theories/MuxOptProofs3.v
theories/MuxOptProofs4.v
theories/Props_MuxOpt.v
theories/HighLevel.v
theories/Props_HighLevel.v
theories/Goldilocks.v
theories/SpecGold.v
theories/GoldilocksProofs.v
theories/GoldilocksProofs2.v
theories/GoldilocksProofs3.v
theories/Props_Gold.v
theories/Transforms.v
theories/SpecTransforms.v
theories/TransformsProofs.v
theories/TransformsProofs2.v
theories/Props_Transforms.v
theories/SpecStack.v
theories/StackProofs.v
theories/Props_Stack.v
theories/FftPfks.v
theories/FftPfksProofs.v
theories/Props_FftPfks.v
theories/SpecPipe.v
theories/PipeProofs.v
theories/PipeProofs2.v
theories/Pipe.v
theories/SpecPipe2.v
theories/PipeProofs3.v
theories/PipeProofs4.v
theories/Props_Pipe.v
theories/Pipe2.v
theories/SpecPipe3.v
theories/PipeProofs5.v
theories/PipeProofs6.v
theories/Props_Pipe2.v
theories/Pipe3.v
theories/SpecPipe4.v
theories/PipeProofs7.v
theories/PipeProofs8.v
theories/Props_Pipe3.v
theories/Pipe4.v
theories/SpecPipe5.v
theories/PipeProofs9.v
theories/Props_Pipe4.v
theories/Pipe5.v
theories/SpecPipe6.v
theories/PipeProofs10.v
theories/Props_Pipe5.v
