-Q theories Verif

theories/Model/Channel.v
theories/Model/Debug.v
theories/Model/Filters.v
theories/Model/Floats.v
theories/Model/Generators.v
theories/Model/Modifiers.v
theories/Model/Mono.v
theories/Model/Parts.v
theories/Model/Resampler.v
theories/Model/SampleFormat.v
theories/Model/Sounds.v
theories/Model/Stereo.v
theories/Model/Utils.v
theories/Model/Wav.v
theories/Spec/Branches.v
theories/Spec/Bytes.v
theories/Spec/Chain.v
theories/Spec/Change.v
theories/Spec/Chord.v
theories/Spec/Comb.v
theories/Spec/Convolve.v
theories/Spec/Decibel.v
theories/Spec/Delayed.v
theories/Spec/Detune.v
theories/Spec/Feedback.v
theories/Spec/Flow.v
theories/Spec/Follower.v
theories/Spec/Libm.v
theories/Spec/Loop.v
theories/Spec/MixOrder.v
theories/Spec/Normalise.v
theories/Spec/Note.v
theories/Spec/Parts.v
theories/Spec/Pitch.v
theories/Spec/Playback.v
theories/Spec/Quantum.v
theories/Spec/Rack.v
theories/Spec/RealNum.v
theories/Spec/Resave.v
theories/Spec/Response.v
theories/Spec/Ring.v
theories/Spec/RingMod.v
theories/Spec/Scrub.v
theories/Spec/SoundSpec.v
theories/Spec/Sweep.v
theories/Spec/Taps.v
theories/Spec/Text.v
theories/Spec/Track.v
theories/Spec/Waves.v
theories/Proof/AdsrP.v
theories/Proof/AdsrP2.v
theories/Proof/AdsrP3.v
theories/Proof/AdsrP4.v
theories/Proof/AdsrShapeP.v
theories/Proof/BandPassF32P.v
theories/Proof/BandPassP.v
theories/Proof/BranchP.v
theories/Proof/BranchP2.v
theories/Proof/ChainP.v
theories/Proof/ChainP2.v
theories/Proof/ChainP3.v
theories/Proof/ChainP4.v
theories/Proof/ChangeP.v
theories/Proof/ChangeP2.v
theories/Proof/ChangeP3.v
theories/Proof/ChannelP.v
theories/Proof/ChordP.v
theories/Proof/ChordP2.v
theories/Proof/ChordP3.v
theories/Proof/CombP.v
theories/Proof/ConvolveP.v
theories/Proof/ConvolveP2.v
theories/Proof/ConvolveP3.v
theories/Proof/CornersP.v
theories/Proof/DbP.v
theories/Proof/DebugP.v
theories/Proof/DetuneP.v
theories/Proof/DiffEqP.v
theories/Proof/DurationP.v
theories/Proof/EchoP.v
theories/Proof/EnvelopeP.v
theories/Proof/FeedbackP.v
theories/Proof/FeedbackP2.v
theories/Proof/FeedbackP3.v
theories/Proof/FileP.v
theories/Proof/FilterDcP.v
theories/Proof/FilterDcP2.v
theories/Proof/FilterF32P.v
theories/Proof/FilterF32P2.v
theories/Proof/FilterNanP.v
theories/Proof/FiltersP.v
theories/Proof/FiltersP2.v
theories/Proof/FloatFacts.v
theories/Proof/FlowP.v
theories/Proof/FlowP2.v
theories/Proof/FollowP.v
theories/Proof/FormatsP.v
theories/Proof/FormatsVecP.v
theories/Proof/GeneratorsP.v
theories/Proof/GeneratorsP2.v
theories/Proof/GeneratorsP3.v
theories/Proof/GeneratorsP4.v
theories/Proof/GenericP.v
theories/Proof/HeapP.v
theories/Proof/HighPassP.v
theories/Proof/LevelP.v
theories/Proof/LevelP2.v
theories/Proof/LibmP.v
theories/Proof/LoopP.v
theories/Proof/LoopP2.v
theories/Proof/MixOrderP.v
theories/Proof/MixOrderP2.v
theories/Proof/MixP.v
theories/Proof/ModifiersP.v
theories/Proof/MonoWavP.v
theories/Proof/NearP.v
theories/Proof/NormaliseP.v
theories/Proof/NoteP.v
theories/Proof/NoteP2.v
theories/Proof/OrderP.v
theories/Proof/PanP.v
theories/Proof/PartsP.v
theories/Proof/PartsP2.v
theories/Proof/PitchP.v
theories/Proof/PitchP2.v
theories/Proof/PlayP.v
theories/Proof/RackP.v
theories/Proof/RackP2.v
theories/Proof/ResamplerP.v
theories/Proof/ResamplerP2.v
theories/Proof/ResamplerP3.v
theories/Proof/ResaveP.v
theories/Proof/ResponseP.v
theories/Proof/ResponseP2.v
theories/Proof/ResponseP3.v
theories/Proof/RingModP.v
theories/Proof/RingP.v
theories/Proof/RingP2.v
theories/Proof/RingP3.v
theories/Proof/RingP4.v
theories/Proof/SampleFormatP.v
theories/Proof/SampleFormatP2.v
theories/Proof/ScrubP.v
theories/Proof/SoundsP.v
theories/Proof/SoundsP2.v
theories/Proof/SoundsP3.v
theories/Proof/SpecFloatP.v
theories/Proof/SweepP.v
theories/Proof/SweepP2.v
theories/Proof/TapsP.v
theories/Proof/TapsP2.v
theories/Proof/TapsP3.v
theories/Proof/TrackP.v
theories/Proof/TrackP2.v
theories/Proof/TrackP3.v
theories/Proof/TrackP4.v
theories/Proof/UtilsP.v
theories/Proof/WavP.v
theories/Proof/WavesP.v
theories/Properties/AdsrShape.v
theories/Properties/Branches.v
theories/Properties/Chain.v
theories/Properties/Change.v
theories/Properties/Channel.v
theories/Properties/Chord.v
theories/Properties/Comb.v
theories/Properties/Convolve.v
theories/Properties/Corners.v
theories/Properties/Debug.v
theories/Properties/Decibel.v
theories/Properties/DiffEq.v
theories/Properties/Feedback.v
theories/Properties/File.v
theories/Properties/Filters.v
theories/Properties/FiltersF32.v
theories/Properties/Flow.v
theories/Properties/Follower.v
theories/Properties/Formats.v
theories/Properties/Generators.v
theories/Properties/Loop.v
theories/Properties/MixOrder.v
theories/Properties/Mixing.v
theories/Properties/Modifiers.v
theories/Properties/Normalise.v
theories/Properties/Note.v
theories/Properties/Parts.v
theories/Properties/Pitch.v
theories/Properties/Playback.v
theories/Properties/Rack.v
theories/Properties/Resampler.v
theories/Properties/Resave.v
theories/Properties/Response.v
theories/Properties/Ring.v
theories/Properties/RingMod.v
theories/Properties/Samples.v
theories/Properties/Scrub.v
theories/Properties/Sounds.v
theories/Properties/Sweep.v
theories/Properties/Taps.v
theories/Properties/Track.v
theories/Properties/Utils.v
theories/Properties/Wav.v
theories/Properties/Waves.v
theories/Audit/AdsrShapeA.v
theories/Audit/BranchesA.v
theories/Audit/ChainA.v
theories/Audit/ChangeA.v
theories/Audit/ChannelA.v
theories/Audit/ChordA.v
theories/Audit/CombA.v
theories/Audit/ConvolveA.v
theories/Audit/CornersA.v
theories/Audit/DebugA.v
theories/Audit/DecibelA.v
theories/Audit/DiffEqA.v
theories/Audit/FeedbackA.v
theories/Audit/FileA.v
theories/Audit/FiltersA.v
theories/Audit/FiltersF32A.v
theories/Audit/FlowA.v
theories/Audit/FollowerA.v
theories/Audit/FormatsA.v
theories/Audit/GeneratorsA.v
theories/Audit/LoopA.v
theories/Audit/MixOrderA.v
theories/Audit/MixingA.v
theories/Audit/ModifiersA.v
theories/Audit/NormaliseA.v
theories/Audit/NoteA.v
theories/Audit/PartsA.v
theories/Audit/PitchA.v
theories/Audit/PlaybackA.v
theories/Audit/RackA.v
theories/Audit/ResamplerA.v
theories/Audit/ResaveA.v
theories/Audit/ResponseA.v
theories/Audit/RingA.v
theories/Audit/RingModA.v
theories/Audit/SamplesA.v
theories/Audit/ScrubA.v
theories/Audit/SoundsA.v
theories/Audit/SweepA.v
theories/Audit/TapsA.v
theories/Audit/TrackA.v
theories/Audit/UtilsA.v
theories/Audit/WavA.v
theories/Audit/WavesA.v
