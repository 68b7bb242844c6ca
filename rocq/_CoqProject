-Q theories Verif
theories/Common.v
theories/ListLemmas.v
theories/CircularBufferModel.v
theories/CircularBufferSpec.v
theories/CircularBufferProofs.v
theories/CircularBufferProps.v
theories/FixedDelayLineModel.v
theories/FixedDelayLineSpec.v
theories/FixedDelayLineProofs.v
theories/FixedDelayLineProps.v
theories/CInt.v
theories/NumberUtilModel.v
theories/NumberUtilProofs.v
theories/NumberUtilProps.v
theories/CombinationsModel.v
theories/CombinationsSpec.v
theories/CombinationsProofs.v
theories/CombinationsProps.v
theories/CrossProductModel.v
theories/CrossProductSpec.v
theories/CrossProductProofs.v
theories/CrossProductProps.v
theories/RationalApproxModel.v
theories/RationalApproxSpec.v
theories/RationalApproxProofs.v
theories/RationalApproxProps.v
theories/SerializeModel.v
theories/SerializeSpec.v
theories/SerializeProofs.v
theories/SerializeProps.v
theories/WavModel.v
theories/WavSpec.v
theories/WavProofs.v
theories/WavHeaderProofs.v
theories/WavFileProofs.v
theories/WavWriteProofs.v
theories/WavPropsProofs.v
theories/WavProps.v
theories/ResamplerModel.v
theories/ResamplerSpec.v
theories/ResamplerProofs.v
theories/ResamplerPropsProofs.v
theories/ResamplerProps.v
theories/FirModel.v
theories/FirSpec.v
theories/FirProofs.v
theories/FirProps.v
theories/Mealy.v
theories/BiquadModel.v
theories/BiquadSpec.v
theories/BiquadProofs.v
theories/BiquadProps.v
theories/RealUtil.v
theories/DesignModel.v
theories/DesignSpec.v
theories/DesignProofs.v
theories/DesignProofs2.v
theories/DesignProofs3.v
theories/DesignProps.v
theories/CascadeModel.v
theories/CascadeSpec.v
theories/CascadeProofs.v
theories/CascadeProofs2.v
theories/CascadeProps.v
theories/LadderModel.v
theories/LadderSpec.v
theories/LadderProofs.v
theories/LadderProofs2.v
theories/LadderProofs3.v
theories/LadderProofs4.v
theories/LadderProps.v
theories/ComplexModel.v
theories/ComplexProofs.v
theories/ComplexProps.v
theories/ButterworthModel.v
theories/ButterworthProofs.v
theories/ButterworthProps.v
theories/EnvelopeModel.v
theories/EnvelopeSpec.v
theories/EnvelopeProofs.v
theories/EnvelopeProps.v
theories/TeagerModel.v
theories/TeagerProofs.v
theories/TeagerProps.v
theories/DecibelsModel.v
theories/DecibelsProps.v
theories/NthLemmas.v
theories/TopNModel.v
theories/TopNSpec.v
theories/TopNProofs.v
theories/TopNProps.v
theories/DrcCurveModel.v
theories/DrcCurveSpec.v
theories/DrcCurveProofs.v
theories/DrcCurveProps.v
theories/DrcModel.v
theories/DrcSpec.v
theories/DrcProofs.v
theories/DrcProps.v
theories/BackgroundModel.v
theories/BackgroundSpec.v
theories/BackgroundProofs.v
theories/BackgroundProps.v
theories/EqualizerModel.v
theories/EqualizerSpec.v
theories/EqualizerProofs.v
theories/EqualizerProps.v
theories/SpectrogramModel.v
theories/SpectrogramSpec.v
theories/SpectrogramProofs.v
theories/SpectrogramProofs2.v
theories/SpectrogramProofs3.v
theories/SpectrogramProps.v
theories/SpectralProcessorModel.v
theories/SpectralProcessorSpec.v
theories/SpectralProcessorProofs.v
theories/SpectralProcessorProps.v
theories/MfccModel.v
theories/MfccSpec.v
theories/MfccProofs.v
theories/MfccProofs2.v
theories/MfccProofs3.v
theories/MfccProps.v
theories/BesselModel.v
theories/BesselSpec.v
theories/BesselProofs.v
theories/WindowModel.v
theories/WindowSpec.v
theories/WindowProofs.v
theories/WindowProofs2.v
theories/WindowProofs3.v
theories/WindowProofs4.v
theories/WindowProofs5.v
theories/WindowProps.v
theories/FastFunModel.v
theories/FastFunSpec.v
theories/FastFunProofs.v
theories/FastFunProofs2.v
theories/FastFunProofs3.v
theories/FastFunProofs4.v
theories/FastFunProofs5.v
theories/FastFunProps.v
theories/PhasorModel.v
theories/PhasorProps.v
theories/AgcModel.v
theories/AgcSpec.v
theories/AgcProofs.v
theories/AgcProps.v
theories/FftModel.v
theories/FftSpec.v
theories/FftProofs.v
theories/FftProofs2.v
theories/FftProofs3.v
theories/FftProofs4.v
theories/FftProofs5.v
theories/FftFloat.v
theories/FftProps.v
theories/NelderMeadModel.v
theories/NelderMeadSpec.v
theories/NelderMeadProofs.v
theories/NelderMeadProofs2.v
theories/NelderMeadProofs3.v
theories/NelderMeadProofs4.v
theories/NelderMeadProofs5.v
theories/NelderMeadCases.v
theories/NelderMeadProps.v
theories/PoleZeroModel.v
theories/PoleZeroSpec.v
theories/PoleZeroProofs.v
theories/PoleZeroProofs2.v
theories/PoleZeroProofs3.v
theories/PoleZeroProofs4.v
theories/PoleZeroProofs5.v
theories/PolyRoots.v
theories/PoleZeroProofs6.v
theories/PoleZeroProofs7.v
theories/PoleZeroProofs8.v
theories/PoleZeroProofs9.v
theories/PoleZeroProofs10.v
theories/PoleZeroProofs11.v
theories/PoleZeroProofs12.v
theories/PoleZeroProofs13.v
theories/PoleZeroProofs14.v
theories/PoleZeroProofs15.v
theories/PoleZeroProofs16.v
theories/PoleZeroProofs17.v
theories/PoleZeroProofs18.v
theories/PoleZeroProofs19.v
theories/PoleZeroProofs20.v
theories/PoleZeroProofs21.v
theories/PoleZeroProofs22.v
theories/PoleZeroProofs23.v
theories/PoleZeroProofs24.v
theories/PoleZeroProofs25.v
theories/PoleZeroProofs26.v
theories/PoleZeroProps.v
theories/WavCompleteProofs.v
theories/WavProps2.v
theories/ResamplerProps2.v
theories/EqualizerProps2.v
theories/KaiserProofs.v
theories/WindowProps2.v
theories/VectorUtilModel.v
theories/VectorUtilSpec.v
theories/VectorUtilProofs.v
theories/VectorUtilProofs2.v
theories/VectorUtilProofs3.v
theories/VectorUtilProps.v
theories/ArithSeqModel.v
theories/ArithSeqSpec.v
theories/ArithSeqProofs.v
theories/ArithSeqProps.v
theories/SteadySpec.v
theories/SteadyProofs.v
theories/SteadyProps.v
theories/LoudnessModel.v
theories/LoudnessSpec.v
theories/LoudnessProofs.v
theories/LoudnessProofs2.v
theories/LoudnessProps.v
theories/EnvDetectModel.v
theories/EnvDetectProofs.v
theories/EnvDetectProofs2.v
theories/EnvDetectProps.v
theories/LoudCompModel.v
theories/LoudCompSpec.v
theories/LoudCompProofs.v
theories/LoudCompProps.v
theories/PerceptualModel.v
theories/PerceptualSpec.v
theories/PerceptualProofs.v
theories/PerceptualProofs2.v
theories/PerceptualProofs3.v
theories/PerceptualProofs4.v
theories/PerceptualProps.v
theories/MultiCrossModel.v
theories/MultiCrossSpec.v
theories/MultiCrossProofs.v
theories/MultiCrossProofs2.v
theories/MultiCrossProofs3.v
theories/MultiCrossProofs4.v
theories/MultiCrossProofs5.v
theories/MultiCrossProofs6.v
theories/MultiCrossProofs7.v
theories/MultiCrossProofs8.v
theories/MultiCrossProofs9.v
theories/MultiCrossProps.v
theories/MultiCompModel.v
theories/MultiCompSpec.v
theories/MultiCompProofs.v
theories/MultiCompProofs2.v
theories/MultiCompProofs3.v
theories/MultiCompProofs4.v
theories/MultiCompProofs5.v
theories/MultiCompProofs6.v
theories/MultiCompProofs7.v
theories/MultiCompProofs8.v
theories/MultiCompProps.v
theories/ZpkModel.v
theories/ZpkSpec.v
theories/ZpkProofs.v
theories/ZpkProofs2.v
theories/ZpkProofs3.v
theories/ZpkProofs4.v
theories/ZpkProofs5.v
theories/ZpkProofs6.v
theories/ZpkProofs7.v
theories/ZpkProofs8.v
theories/ZpkProofs9.v
theories/ZpkProofs10.v
theories/ZpkProps.v
theories/WavStringModel.v
theories/WavStringSpec.v
theories/WavStringProofs.v
theories/WavStringProps.v
theories/PeakModel.v
theories/PeakSpec.v
theories/PeakProofs.v
theories/PeakProofs2.v
theories/PeakProofs3.v
theories/PeakProofs4.v
theories/PeakProps.v
theories/AuditoryModel.v
theories/AuditorySpec.v
theories/AuditoryProofs.v
theories/AuditoryProofs2.v
theories/AuditoryProofs3.v
theories/AuditoryProofs4.v
theories/AuditoryProofs5.v
theories/AuditoryProofs6.v
theories/AuditoryProps.v
theories/TapSmoothModel.v
theories/TapSmoothSpec.v
theories/TapSmoothProofs.v
theories/TapSmoothProofs2.v
theories/TapSmoothProps.v
theories/SignalGenModel.v
theories/SignalGenProps.v
theories/EllipticModel.v
theories/EllipticSpec.v
theories/EllipticProofs.v
theories/EllipticProofs2.v
theories/EllipticProofs3.v
theories/EllipticProofs4.v
theories/EllipticProofs5.v
theories/EllipticProofs6.v
theories/EllipticProps.v
theories/EqualizerFitModel.v
theories/EqualizerFitSpec.v
theories/EqualizerFitProofs.v
theories/EqualizerFitProofs2.v
theories/EqualizerFitProofs3.v
theories/EqualizerFitProofs4.v
theories/EqualizerFitProofs5.v
theories/EqualizerFitProps.v
theories/EllipticDesignModel.v
theories/EllipticDesignSpec.v
theories/EllipticDesignProofs.v
theories/EllipticDesignProofs2.v
theories/EllipticDesignProofs3.v
theories/EllipticDesignProofs4.v
theories/EllipticDesignProofs5.v
theories/EllipticDesignProofs6.v
theories/EllipticDesignProps.v
theories/LevelMeterModel.v
theories/LevelMeterSpec.v
theories/LevelMeterProofs.v
theories/LevelMeterProofs2.v
theories/LevelMeterProofs3.v
theories/LevelMeterProofs4.v
theories/LevelMeterProofs5.v
theories/LevelMeterProofs6.v
theories/LevelMeterProofs7.v
theories/LevelMeterProps.v
theories/EllipticAxisSpec.v
theories/EllipticAxisProofs.v
theories/EllipticAxisProofs2.v
theories/EllipticAxisProofs3.v
theories/EllipticAxisProps.v
theories/EllipticPathSpec.v
theories/EllipticPathProofs.v
theories/EllipticPathProofs2.v
theories/EllipticPathProofs3.v
theories/EllipticPathProofs4.v
theories/EllipticPathProofs5.v
theories/EllipticPathProofs6.v
theories/EllipticPathProps.v
theories/EllipticStableProofs.v
theories/EllipticStableProofs2.v
theories/EllipticStableProofs3.v
theories/EllipticStableProofs4.v
theories/EllipticStableProps.v
theories/EllipticPortableProofs.v
theories/EllipticPortableProofs2.v
theories/EllipticPortableProps.v
theories/EllipticPoleSpec.v
theories/EllipticPoleProofs.v
theories/EllipticPoleProofs2.v
theories/EllipticPoleProps.v
