-Q theories Verif
theories/Base/Outcome.v
theories/Base/OutcomeFacts.v
theories/Base/Sums.v
theories/Base/Cplx.v
theories/Spec/Dft.v
theories/Proof/DftTheory.v
theories/Spec/DigitRev.v
theories/Model/Fft2.v
theories/Proof/DigitRevTheory.v
theories/Proof/Fft2Proof.v
theories/Model/FftRadix.v
theories/Proof/BitrevProof.v
theories/Proof/RadixProof.v
theories/Model/Stockham.v
theories/Proof/StockhamProof.v
theories/Spec/Twisted.v
theories/Proof/TwistedTheory.v
theories/Proof/Radix4Proof.v
theories/Proof/FftCorollaries.v
theories/Props/FftProps.v
theories/Model/Integers.v
theories/Proof/IntegersProof.v
theories/Base/Alias.v
theories/Model/FixedPoint.v
theories/Model/Simd.v
theories/Proof/FixedProof.v
theories/Proof/FixedFloat.v
theories/Proof/IntegerCorollaries.v
theories/Props/IntegerProps.v
theories/Props/FixedPointProps.v
theories/Spec/Sparse.v
theories/Spec/Views.v
theories/Model/Algorithm.v
theories/Model/Csr.v
theories/Proof/AlgorithmProof.v
theories/Proof/AlgorithmCorollaries.v
theories/Proof/CsrProof.v
theories/Proof/CsrCorollaries.v
theories/Props/AlgorithmProps.v
theories/Props/CsrProps.v
theories/Model/FftApps.v
theories/Model/ExpRfft.v
theories/Model/Convolution.v
theories/Model/Stft.v
theories/Spec/Stft.v
theories/Spec/FdlIndex.v
theories/Spec/Convolvers.v
theories/Spec/Transforms.v
theories/Spec/Convolution.v
theories/Proof/SplitFftProof.v
theories/Proof/RfftProof.v
theories/Proof/BluesteinProof.v
theories/Proof/DctProof.v
theories/Proof/ExpRfftProof.v
theories/Proof/DirectConvProof.v
theories/Proof/ConvTheory.v
theories/Proof/FftConvProof.v
theories/Proof/OverlapProof.v
theories/Proof/StreamProof.v
theories/Proof/LtiProof.v
theories/Proof/UpcProof.v
theories/Proof/UpcInstances.v
theories/Proof/StftProof.v
theories/Proof/UpcFinal.v
theories/Proof/FdlIndexProof.v
theories/Proof/ConvCorollaries.v
theories/Props/TransformProps.v
theories/Props/ConvolutionProps.v
theories/Model/OverlapAddConvolver.v
theories/Spec/OverlapAddCalls.v
theories/Proof/OacProof.v
theories/Props/OverlapAddProps.v
theories/Model/Statistics.v
theories/Spec/Statistics.v
theories/Proof/StatisticsProof.v
theories/Props/StatisticsProps.v
theories/Model/CompressedFdl.v
theories/Model/Units.v
theories/Model/ScalarComplex.v
theories/Spec/CompressedFdl.v
theories/Proof/UnitsProof.v
theories/Proof/CompressedFdlProof.v
theories/Props/ScalarComplexProps.v
theories/Props/UnitsProps.v
theories/Props/CompressedFdlProps.v
theories/Model/Cli.v
theories/Proof/CliProof.v
theories/Props/CliProps.v
theories/Model/ConstantOverlapAdd.v
theories/Spec/Framer.v
theories/Proof/FramerProof.v
theories/Props/FramerProps.v
theories/Model/PluginConvolution.v
theories/Spec/Plugin.v
theories/Proof/PluginProof.v
theories/Proof/DenseConvolutionProof.v
theories/Props/DenseConvolutionProps.v
theories/Spec/Offline.v
theories/Proof/OfflineProof.v
theories/Model/OfflineV2.v
theories/Proof/OfflineV2Proof.v
theories/Props/OfflineProps.v
theories/Spec/PluginConv.v
theories/Proof/PluginConvProof.v
theories/Props/PluginConvProps.v
theories/Model/Spectrum.v
theories/Spec/Spectrum.v
theories/Proof/SpectrumProof.v
theories/Props/SpectrumProps.v
theories/Base/PolyCheck.v
theories/Base/LogBounds.v
theories/Model/FastMath.v
theories/Proof/FastLogExact.v
theories/Proof/FastMathProof.v
theories/Props/FastMathProps.v
theories/Base/VecNorm.v
theories/Spec/Rounding.v
theories/Model/RoundedFft.v
theories/Proof/RoundedExec.v
theories/Proof/RoundedError.v
theories/Proof/RoundedPlan.v
theories/Props/RoundedFftProps.v
theories/Model/RoundedConv.v
theories/Proof/RoundedRfft.v
theories/Proof/RoundedMac.v
theories/Proof/RoundedSynth.v
theories/Proof/RoundedFftConv.v
theories/Proof/RoundedFftConvError.v
theories/Proof/RoundedUpols.v
theories/Proof/RoundedStft.v
theories/Spec/RoundedConvolvers.v
theories/Proof/RoundedUpolsError.v
theories/Proof/RoundedSplit.v
theories/Proof/RoundedUpola.v
theories/Proof/RoundedUpolaError.v
theories/Model/RoundedReal.v
theories/Model/RoundedBluestein.v
theories/Spec/RoundedReal.v
theories/Spec/RoundedBluestein.v
theories/Proof/RoundedReal.v
theories/Proof/RoundedDct.v
theories/Proof/RoundedBluestein.v
theories/Proof/RoundedBluesteinError.v
theories/Proof/RoundedDft.v
theories/Props/RoundedConvProps.v
theories/Model/PythonBindings.v
theories/Spec/Numpy.v
theories/Proof/PythonProof.v
theories/Proof/PythonConv.v
theories/Props/PythonProps.v
theories/Model/VendorFft.v
theories/Spec/Vendor.v
theories/Model/PlanLifetime.v
theories/Spec/Lifetime.v
theories/Proof/LifetimeProof.v
theories/Proof/VendorProof.v
theories/Proof/VendorReal.v
theories/Props/VendorProps.v
theories/Props/LifetimeProps.v
theories/Model/PluginEffect.v
theories/Spec/Effect.v
theories/Proof/EffectProof.v
theories/Props/EffectProps.v
theories/Model/SimdBatch.v
theories/Spec/Batch.v
theories/Proof/SimdBatchProof.v
theories/Props/SimdBatchProps.v
theories/Spec/Sensitivity.v
theories/Proof/SensitivityProof.v
theories/Props/SensitivityProps.v
theories/Spec/RoundedSums.v
theories/Proof/RoundedSums.v
theories/Model/RoundedStats.v
theories/Proof/RoundedDirect.v
theories/Props/RoundedDirectProps.v
theories/Proof/RoundedStatsProof.v
theories/Proof/RoundedNormalize.v
theories/Props/RoundedStatsProps.v
theories/Props/RoundedRealProps.v
theories/Props/BluesteinRoundingProps.v
theories/Spec/Interleaving.v
theories/Model/Concurrent.v
theories/Spec/Jobs.v
theories/Proof/InterleavingProof.v
theories/Proof/ConcurrentProof.v
theories/Props/ConcurrencyProps.v
theories/Spec/Accesses.v
theories/Proof/AccessesProof.v
theories/Props/AccessProps.v
theories/Model/BenchmarkTab.v
theories/Spec/Benchmark.v
theories/Proof/BenchmarkProof.v
theories/Proof/BenchmarkEngines.v
theories/Props/BenchmarkProps.v
theories/Props/BenchmarkFileProps.v
theories/Spec/Share.v
theories/Proof/ShareProof.v
theories/Props/ShareProps.v
theories/Spec/Lanes.v
theories/Model/SimdFft.v
theories/Proof/SimdFftProof.v
theories/Props/SimdFftProps.v
theories/Model/CliMain.v
theories/Spec/Wav.v
theories/Proof/CliMainProof.v
theories/Props/CliMainProps.v
theories/Model/PluginEditors.v
theories/Spec/HostCalls.v
theories/Proof/PluginEditorsProof.v
theories/Props/PluginEditorsProps.v
theories/Model/PluginState.v
theories/Spec/HostState.v
theories/Proof/PluginStateProof.v
theories/Props/PluginStateProps.v
theories/Model/Snippets.v
theories/Proof/SplitRadixProof.v
theories/Proof/SnippetsProof.v
theories/Props/SnippetProps.v
theories/Model/AudioFile.v
theories/Props/AudioFileProps.v
theories/Model/MathFunctions.v
theories/Props/MathFunctionProps.v
theories/Model/SnippetRfft.v
theories/Proof/SnippetRfftProof.v
theories/Props/SnippetRfftProps.v
theories/Model/SnippetSplit.v
theories/Model/RadixPy.v
theories/Proof/SnippetSplitProof.v
theories/Proof/RadixPyReversal.v
theories/Proof/RadixPyProof.v
theories/Proof/SnippetDit4Proof.v
theories/Props/SnippetSplitProps.v
theories/Props/RadixPyProps.v
theories/Spec/FixedRange.v
theories/Model/FixedBench.v
theories/Proof/FixedBenchProof.v
theories/Props/FixedBenchProps.v
theories/Props/FixedFmaProps.v
theories/Model/CompressedMul.v
theories/Proof/CompressedMulProof.v
theories/Props/CompressedMulProps.v
