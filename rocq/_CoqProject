-Q theories Verif
theories/Num.v
theories/Numpy.v
theories/AxisModel.v
theories/RelModel.v
theories/Spec.v
theories/RLemmas.v
theories/AxisLemmas.v
theories/InterpLemmas.v
theories/VInst.v
theories/RelLemmas.v
theories/RelLemmas2.v
theories/RelLemmas3.v
theories/CorrLemmas.v
theories/HeapModel.v
theories/HeapSpec.v
theories/HeapLemmas.v
theories/HeapLemmas2.v
theories/HeapLemmas3.v
theories/HeapLemmas4.v
theories/HeapLemmas5.v
theories/HeapLemmas6.v
theories/PropsAxis.v
theories/PropsRel.v
theories/PropsHeap.v
theories/FourierSpec.v
theories/FourierModel.v
theories/DftLemmas.v
theories/FourierLemmas.v
theories/FourierLemmas2.v
theories/SpectrumLemmas.v
theories/SpectrumLemmas2.v
theories/FourierLemmas3.v
theories/FourierLemmas4.v
theories/FourierLemmas5.v
theories/PropsFourier.v
theories/PropsFourier2.v
theories/SignalSpec.v
theories/HeapLemmas7.v
theories/HeapLemmas8.v
theories/PropsSignal.v
theories/SweepModel.v
theories/SweepSpec.v
theories/SweepLemmas.v
theories/SweepLemmas2.v
theories/SweepLemmas3.v
theories/PropsSweep.v
theories/PreparedModel.v
theories/PreparedSpec.v
theories/PreparedLemmas.v
theories/LogLemmas.v
theories/PreparedLemmas2.v
theories/PreparedLemmas3.v
theories/PreparedLemmas4.v
theories/PreparedLemmas5.v
theories/PreparedLemmas6.v
theories/PreparedLemmas7.v
theories/TransferSpec.v
theories/TransferLemmas.v
theories/PreparedLemmas8.v
theories/PropsPrepared.v
theories/PropsPrepared2.v
theories/MseqSpec.v
theories/MseqLemmas.v
theories/MseqLemmas2.v
theories/PropsPrepared3.v
theories/PreparedLemmas9.v
theories/PreparedLemmas10.v
theories/PropsPrepared4.v
theories/ProgModel.v
theories/ProgSpec.v
theories/ProgLemmas.v
theories/PropsProg.v
theories/CallSpec.v
theories/CallLemmas.v
theories/SeqModel.v
theories/SeqLemmas.v
theories/PropsSeq.v
theories/PropsCall.v
theories/HilbertModel.v
theories/HilbertSpec.v
theories/HilbertLemmas.v
theories/PropsHilbert.v
theories/FloatSpec.v
theories/FloatLemmas.v
theories/FloatLemmas2.v
theories/FloatLemmas3.v
theories/FloatLemmas4.v
theories/PropsFloat.v
theories/CalcSpec.v
theories/FloatLemmas5.v
theories/FloatLemmas6.v
theories/FloatLemmas7.v
theories/FloatLemmas8.v
theories/FloatLemmas9.v
theories/FloatSweepSpec.v
theories/FloatLawSpec.v
theories/FloatLemmas10.v
theories/FloatLemmas11.v
theories/PropsFloat2.v
theories/PropsFloat3.v
theories/PropsFloat4.v
theories/PropsFloat5.v
theories/PropsFloat6.v
theories/PropsExtreme.v
theories/DeconvSpec.v
theories/DeconvLemmas.v
theories/PropsDeconv.v
theories/UtilModel.v
theories/ExtremeModel.v
theories/ExtremeSpec.v
theories/ExtremeLemmas.v
theories/UtilLemmas.v
theories/PropsUtil.v
theories/AprioriModel.v
theories/AprioriSpec.v
theories/AprioriLemmas.v
theories/PropsApriori.v
theories/DelaySpec.v
theories/DelayLemmas.v
theories/AccuracySpec.v
theories/AccuracyLemmas.v
theories/PropsAccuracy.v
theories/TimeSpec.v
theories/TimeLemmas.v
theories/TimeLemmas2.v
theories/PropsTime.v
theories/LinSpec.v
theories/LinLemmas.v
theories/LinLemmas2.v
theories/PropsLin.v
theories/InexactSpec.v
theories/InexactLemmas.v
theories/PropsInexact.v
theories/CausalSpec.v
theories/CausalLemmas.v
theories/PropsCausal.v
theories/PropsDelay.v
