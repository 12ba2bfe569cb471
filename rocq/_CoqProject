-Q theories Verif
theories/Base.v
theories/BaseLemmas.v
theories/Instances.v
theories/PyString.v
theories/FirModel.v
theories/FirSpec.v
theories/FirProofs.v
theories/FirDesignProofs.v
theories/FirProps.v
theories/IirModel.v
theories/IirSpec.v
theories/IirProofs.v
theories/IirProps.v
theories/CalculusModel.v
theories/CalculusSpec.v
theories/CalculusProps.v
theories/RankModel.v
theories/RankProps.v
theories/PidModel.v
theories/PidProps.v
theories/WindowModel.v
theories/WindowProps.v
theories/GoertzelModel.v
theories/CExpModel.v
theories/GoertzelProps.v
theories/CExpProps.v
theories/CBandModel.v
theories/CBandProps.v
theories/CFreqProps.v
theories/Rounding.v
theories/PolyphaseModel.v
theories/PolyphaseProps.v
theories/PolynomialModel.v
theories/PolynomialProps.v
theories/Sums.v
theories/WaveletModel.v
theories/WaveletProofs.v
theories/WaveletProps.v
theories/WaveletExactProps.v
theories/PolyC.v
theories/ZModel.v
theories/ZProofs.v
theories/ZProps.v
theories/IirDesignProofs.v
theories/IirDesignProps.v
theories/CTransModel.v
theories/CTransProps.v
theories/DftModel.v
theories/DftProofs.v
theories/DftProps.v
theories/PsdProps.v
theories/FourierLawsProps.v
theories/GaussModel.v
theories/LinAlg.v
theories/GaussProps.v
theories/GaussExactProps.v
theories/GmmModel.v
theories/GmmProps.v
theories/DivModel.v
theories/DivProps.v
theories/DivExactProps.v
theories/DivDoubleProps.v
theories/DivDistProps.v
theories/LogModel.v
theories/LogProps.v
theories/LogThreadProps.v
theories/RestModel.v
theories/RestProps.v
theories/Base85.v
theories/SerialModel.v
theories/SerialProps.v
theories/AnalysisModel.v
theories/AnalysisProofs.v
theories/AnalysisProps.v
theories/IirDelayProps.v
theories/RootsProps.v
theories/StabilityProofs.v
theories/StabilityProps.v
theories/MagnitudeProofs.v
theories/MagnitudeProps.v
theories/RoundingProofs.v
theories/RoundingProps.v
theories/HeapModel.v
theories/HeapSpec.v
theories/HeapProofs.v
theories/HeapProps.v
theories/CascadeSpec.v
theories/CascadeProofs.v
theories/CascadeProps.v
theories/RankProps2.v
theories/RankDoubleProps.v
theories/DoubleSpec.v
theories/DoubleProofs.v
theories/DoubleOps.v
theories/CExpDoubleProps.v
theories/PolyphaseDoubleProofs.v
theories/PolyphaseDoubleProps.v
theories/PolynomialDoubleProofs.v
theories/PolynomialDoubleProps.v
theories/DoubleProps.v
theories/DoubleIirProofs.v
theories/DoubleIirProps.v
theories/CBandNotchProps.v
theories/AdaptiveChunkProps.v
theories/CFreqTrackProps.v
theories/SmoothProps.v
theories/InterpolationProps.v
theories/PolynomialOperatorProps.v
theories/GaussInvarianceProps.v
theories/GaussPosteriorProps.v
theories/PidLoopProps.v
theories/PidDoubleProps.v
theories/ThreadModel.v
theories/ThreadProps.v
theories/FirwinModel.v
theories/FirwinProps.v
theories/WaveletLevelsProps.v
theories/GoertzelToneProps.v
theories/PolyThreadModel.v
theories/PolyThreadProps.v
theories/WindowGoertzelProps.v
theories/WaveletLift.v
theories/WaveletDoubleProofs.v
theories/WaveletDoubleProps.v
theories/FixedPointProps.v
theories/IntegralDoubleProofs.v
theories/IntegralDoubleProps.v
theories/ListModel.v
theories/ListProps.v
theories/PidComplexModel.v
theories/PidComplexProps.v
theories/ZViewModel.v
theories/ZViewProps.v
theories/InverseProps.v
theories/CTransDoubleModel.v
theories/CTransDoubleProps.v
theories/AdaptDoubleModel.v
theories/AdaptDoubleProps.v
theories/CodecProps.v
theories/RangeProps.v
theories/BesselProps.v
theories/WindowShapeProps.v
theories/RefusalProps.v
theories/GoertzelDoubleProps.v
theories/NanSettingsProps.v
theories/SharedBankModel.v
theories/SharedBankProps.v
theories/GaussDoubleProps.v
theories/CTransLineModel.v
theories/CTransLineProps.v
theories/WaveletLocalProps.v
theories/PsdLocalProps.v
theories/Wavelet2dProps.v
theories/DivThreadModel.v
theories/DivThreadProps.v
theories/RankThreadModel.v
theories/SharedFilterProps.v
theories/GoertzelThreadModel.v
theories/GoertzelThreadProps.v
theories/PidThreadProps.v
theories/DftApproxModel.v
theories/DftApproxProps.v
theories/WaveletComplexProps.v
theories/CExpThreadModel.v
theories/CExpThreadProps.v
theories/RestThreadModel.v
theories/RestThreadProps.v
theories/GmmThreadModel.v
theories/GmmThreadProps.v
theories/CFreqThreadModel.v
theories/CFreqThreadProps.v
theories/CBandThreadModel.v
theories/CBandThreadProps.v
theories/PrateThreadModel.v
theories/PrateThreadProps.v
theories/PphaseThreadModel.v
theories/PphaseThreadProps.v
