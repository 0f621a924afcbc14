# Formal model of ChylerDev/BAE in Rocq (Coq 8.16.1)

## 1. What is modelled and how

BAE is a single-threaded Rust library of audio generators, filters, containers and
converters.  Almost all of its behaviour is IEEE-754 arithmetic plus small state machines.
The model therefore has four ingredients.

* **Floats, bit exact.** `f32` = `binary_float 24 128`, `f64` = `binary_float 53 1024` from
  Flocq's `BinarySingleNaN` (one NaN, since Rust does not specify NaN payloads).  Every `+ - * /`,
  `sqrt`, comparison, `as` cast, `abs`, `round`, `floor`, `trunc`, `fract` is the correctly
  rounded (nearest-even) or exact operation.  `as` casts to integers are the saturating casts of
  Rust >= 1.45 (the CI image is `rust:latest`).  File `Model/Floats.v`.
* **libm as a parameter.** `sin cos tan powf log10` are fields of a record `libm`; theorems
  quantify over every `libm`, with whatever hypotheses they need (e.g. `|sin| <= 1`) stated in
  the theorem.  A correctly rounded instance (`ideal_libm`) shows the hypotheses are satisfiable.
  No axiom is used for it.
* **Panics are values.** A function that may panic returns `res A := Ok a | Panic`; indexing,
  `unwrap`, `%` by zero and checked `usize` arithmetic are explicit.
* **Mutation is state passing**, loops are structural recursion or explicit fuel with a
  distinguished out-of-fuel value that theorems exclude.

User supplied behaviour (`dyn Block`, `dyn Generator`, `dyn Modifier`, `dyn Sound`, interactor
closures, the random engine, the WAV container of the `wav` crate) is a parameter of the
functions that use it, and theorems quantify over it.

`Arc` sharing is modelled by a heap of reference-counted cells with indices as handles, because
`Arc::get_mut` answers depending on the count; the parts of a `StandardBlock` carry their counts
directly.  `Weak` handles are never made by the library and are not modelled.  A cell whose count
reaches 0 is not removed; nothing can reach it.

For statements about exact arithmetic (filter stability, corner frequencies, dB laws) the same
polymorphic definitions (class `Num`) that give the float model are instantiated with the reals.
Those theorems say so in their names (`_exact`).  The float counterparts, where proved, are separate
claims (C83-C88, C93, C94).

When a natural expectation is false of the code, the claim states what users rely on and what is
actually the case; the theorem with the witness ends in `_refuted`, and the other theorems of the
claim characterise the actual behaviour.  Such a claim counts as proved, with a note.

## 2. Layout

    theories/Model/*.v       executable model, one file per source file, citing /repo lines
    theories/Spec/*.v        small independent specifications (list, number theory, reals)
    theories/Proof/*.v       lemmas and proofs
    theories/Properties/*.v  property theorems and the examples that meet their hypotheses
    theories/Audit/*A.v      Print Assumptions for the theorems of each Properties file (generated)
    tools/props.py           writes properties.jsonl
    tools/gen.py             writes _CoqProject, Audit/, MANIFEST.json (notes from tools/notes.json)
    tools/axioms.py          writes section 6 of this file
    seeded/LOG.jsonl         wrong models tried against the theorems

Model files: `Floats` (arithmetic, casts, `res`), `SampleFormat`, `Mono`, `Stereo`, `Utils`, `Wav`,
`Resampler` (with `MonoWav`), `Generators`, `Modifiers`, `Filters`, `Sounds` (blocks, SimpleSound,
ComplexSound, the petgraph subset), `Channel`, `Debug` (debug.rs and bin2str).

Specification files: `Spec/Bytes` (little-endian integers), `Spec/RealNum` (the `Num` of the reals),
`Spec/Libm` (what theorems may assume of libm), `Spec/SoundSpec` (blocks in series,
histories under pause and mute, graphs read off the history of edits), `Spec/Text` (an independent reader of bin2str's output), `Spec/Delayed` (sample n of a
sequence, 0 before its start), `Spec/Response` (tones, settling, transfer functions), `Spec/Track` (allowed
distances between the program's filters and the exact ones), `Spec/Decibel` (decibels, pan law),
`Spec/Waves` (the exact triangle and sawtooth),
`Spec/Playback` (position, interpolation), `Spec/Follower` (what is kept of the past), `Spec/Comb` (sum of decayed repetitions),
`Spec/Parts` (a block driven as sounds drive it; its parts alone; properly built heaps and histories),
`Spec/Chain` (the linear modifiers, their transfer functions, gains and errors, composed along a chain), `Spec/Flow` (what arrives at each block of a ComplexSound in each call), `Spec/Rack` (parts side by side), `Spec/Pitch` (smooth curves, recordings, tones in real time), `Spec/Detune` (the step rounded to the spacing of a position), `Spec/Quantum` (what a file keeps of a sample), `Spec/Convolve` (impulse responses, convolution, Fourier sums), `Spec/Sweep` (the square wave; the accumulated phase of a generator whose frequency changes), `Spec/Branches` (branches of a ComplexSound that are in step, paths, what linear modifiers on them do to a tone), `Spec/Feedback` (feedback connections, what a block gets one call late), `Spec/Loop` (looped tracks, curves that repeat), `Spec/Note` (the curve of a whole note), `Spec/Taps` (the difference equation of Generic over the reals, its response and bounds), `Spec/Ring` (linear modifiers in a feedback loop: the equation of the signal that goes round, gain and noise of a round), `Spec/Change` (remembered samples, moving over to a new setting, alternating corners), `Spec/Chord` (chords, repeating waveforms and their harmonics), `Spec/MixOrder` (a mix without rounding, room and error of a mix in any order), `Spec/RingMod` (a block that multiplies by a sine, sidebands), `Spec/Scrub` (speeds set before every sample), `Spec/Resave` (integers of a depth, reading and writing again), `Spec/Normalise` (mean of a track, a sample less a constant times a number).

## 3. Plan per property

| id | modelled | proof |
|----|----------|-------|
| C01-C07 | `sample_format/mod.rs`, bit exact | Flocq error analysis; the 24-bit round trip by binade argument; refutations by computation |
| C08-C11 | `Mono`, `Stereo` operators and conversions | case analysis; witnesses by computation; relative error for the Stereo doubling |
| C12-C13 | `Panner` impls over any `pow` | exactness of f32->f64, clamp laws, computed dB values |
| C14 | `clamp/lerp/clerp` polymorphic over `Num` | f64 order reasoning; reals by nra |
| C15-C16 | `Duration`, `samples_to_seconds`, `seconds_to_samples` | Flocq error analysis |
| C17 | dB functions over the reals | Rpower/ln algebra |
| C18 | `normalize` bit exact | fold invariants + relative error |
| C19-C23 | `read_wav`/`write_wav` over an abstract lossless container | list induction, modular arithmetic |
| C24-C29 | `MonoResampler` bit exact | invariants over call histories, ulp arguments |
| C30-C40 | generators bit exact | invariants over call histories, accumulated error induction |
| C41-C45 | `Delay`, `Echo` | list induction; monotonicity of rounding for the bound |
| C46-C49 | `ADSR` bit exact | state-machine invariants, progress measures, stall witnesses |
| C50 | `LowPass`/`HighPass` setters | case analysis on NaN/inf |
| C51-C54, C56 | filters, reals instance (+ f32 for coefficient symmetry, non-negativity) | Lyapunov functions, field/nra |
| C55, C57, C58 | `Generic`, `Gain`, ... | list induction, bisimulation with a fresh object |
| C59-C64 | blocks and sounds, polymorphic in block behaviour | induction over histories |
| C65-C70 | petgraph subset + `process_order`, `process` | loop invariants; refutation graphs by computation |
| C71-C74, C89, C90 | `StandardChannel` with reference counts | invariants over histories |
| C75-C77, C82 | `debug.rs`, `bin2str` | list induction |
| C78 | `MonoResampler` at the loop seam | index bounds, rounding |
| C79 | `write_wav`, `read_wav`, `MonoWav` composed | induction over samples |
| C80 | `Sine` against the real sine | accumulated phase error, interpolation error |
| C81 | `ADSR` decay progress | step size against ulp; stall witness |
| C83 | `LowPass`, `HighPass` in f32 from 600 Hz | Lyapunov norm with a margin that absorbs the coefficient rounding and the rounding of every step |
| C84, C85 | both filters at low cutoffs | long runs in `spec_float`, checked by a Boolean test; absorbing NaN state, fixed state |
| C86 | recurrences of all three filters | induction over the input |
| C87, C88 | `BandPass` in f64/f32, corner frequencies | relative error propagation (`Proof/NearP`), disc bounds on the poles |
| C91, C92 | filters, reals instance | linearity, contraction in the Lyapunov norm, closed form of the transfer functions |
| C93, C94 | filters in the program's arithmetic against the reals instance | perturbation of coefficients and steps, absorbed by the same norms |
| C95, C96 | `db_to_linear`, `linear_to_db`, `normalize`, `pan64` bit exact | error analysis against exp and ln |
| C97 | `tri_process`, `saw_process`, `set_frequency` bit exact | phase invariant and rounding drift, against asin of sin and floor |
| C98 | `resampler_process`, `set_playback_speed` bit exact | drift of the position by induction, rounding of the interpolation |
| C99 | `env_new`, `env_process` bit exact; same definition over R | one step contraction of shortfall and excess, error recurrence |
| C100 | `echo_process` bit exact | induction on the queue, error recurrence; gap of the subnormals |
| C101 | `adsr_new`, `adsr_process`, `adsr_release` bit exact | drift of a rounded ramp by induction; durations to f64, steps to f32 |
| C102 | `Model/Parts`: library generators, modifiers and interactors as parts of the `StandardBlock` of `Model/Sounds` | run of the block related to the runs of its parts by induction |
| C103 | the same, `adsr_*`, both sounds on a heap | an invariant of every block of the heap kept by every call (`Proof/HeapP`) |
| C104 | the same | the same, with the panic conditions of every part |
| C105 | the same, with `sin_process`, `delay_process`, `echo_process` and the filters bit exact | sample-wise composition rearranged into block-wise; superposition and impulse responses for the transients, C93, C94, C100 for the errors; induction on the chain |
| C106 | `cs_process`, `cs_run`, `prime_nodes`, `process_order` on any graph | one call by induction on the order with the heap seen through the nodes, then induction on the calls moving late arrivals into the next one; order of parallel branches as an invariant of the loop |
| C107 | Sounds, Parts, Generators, Modifiers, Filters | C106 dataflow of parallel branches, C105 per-part phasor lemmas, relative error of floating-point sums in any order (induction), trigonometric identity for the comb |
| C108 | Resampler, MonoWav, Generators | C98 positions, chord error of a curve with bounded second derivative (concavity by the mean value theorem), tones as smooth curves |
| C109 | Resampler, MonoWav | f32 numbers from 2^j to 2^(j+1) form a grid: rounding a sum rounds the step (induction over calls); first call past 2^j by C98; step of a 44.1 kHz file computed |
| C110 | SampleFormat, Wav, MonoWav, Resampler, Generators | per-sample error of encode-decode, C20 round trip place by place, C108 for the read-back track |
| C111 | Filters, Modifiers, Parts, Sounds | per-part impulse responses (power-series recurrences), algebra of convolution, the C105 error bounds for arbitrary signals, a zero-state simulation for silence |
| C112 | `Generators` | phase in samples tracked as a real with the number of wraps; drift n(2h+1)2^-53 scaled to periods |
| C113 | `Generators` | induction over call histories with the accumulated phase and its error as invariant; for the triangle an invariant interval at the top |
| C114 | `Sounds` | loop invariant of process_order over depths (which blocks are in the work list, which edges are still to come); refinement of process to a synchronous dataflow; refutation by computation |
| C115 | `Sounds`, `Parts` | C114 composed with the tone theorems of the linear modifiers (C105), superposition over the paths with the error of each addition |
| C116 | `Sounds`, `Parts` | invariant of the breadth-first loop: every listed block has a forward predecessor before it, so targets of feedback are already listed and removed as duplicates; the loop composed with C44 |
| C117 | `Resampler` | inside a loop that ends before the track does, each call is that of the un-looped resampler at the same position (C108); the wrap subtracts exactly, so only the steps round, and steps on the grid of the loop's end do not round at all |
| C118 | `Modifiers`, `Parts` | the attack splits off at the first sample that reaches 1; each fall either takes at most twice its time or is too flat to matter; the curve is Lipschitz, so the one sample by which phases may be off costs its slope |
| C119 | `Modifiers` (Generic), `Floats` | C55's difference equation, contraction by the feedback weight for solution, rounding errors and transients (strong induction); a part of the chains of C105, C107, C111, C115 since |
| C120 | `Sounds` (ComplexSound), `Modifiers`, `Filters` | C116's dataflow for a ring, C111's convolution per round, contraction by the loop gain for solution and rounding errors, geometric weights for transients |
| C121 | `Filters` | C93's invariants from any bounded history; C91/C92's forgetting for the end; for the blow-up an invariant on the signs of the last two outputs that grows by 5/4 per pair of samples |
| C122 | `Parts`, `Sounds` | the convolution of C111 and its decaying impulse response; discrete Fourier inversion by Dirichlet's sum; what repeats and dies out is zero |
| C123 | `Channel`, `Mono`, `Stereo` | the mixing loop of C89 for two orders of the map; error of an f32 sum in any order; on a binary grid every partial sum is exact and never -0; for `_refuted` 1, 2^-24, 2^-24 |
| C124 | `Parts`, `Sounds` | the product block of C102 with the accuracy of the sine (C80); product-to-sum formulas on the chords of C122; prefixes of a pipeline |
| C125 | `Resampler` | sums on a binary grid are exact (C117) and avoid the misread positions of C98; induction over the list of speeds |
| C126 | `Wav`, `SampleFormat` | dealing out and interleaving are inverse on whole frames; the error of the deeper file (C110) is less than half a step of the other |
| C127 | `Utils` | the steps of C18 kept apart; error of a sum in f32 (C123) and of a difference relative to itself; a sum of ones by induction, which stops at 2^24 |

### Assumptions about external code

* petgraph (`DiGraph`): `neighbors` lists outgoing neighbours most recently added edge first,
  `externals(Incoming)` lists nodes without incoming edges in index order, `update_edge` panics for a
  node index out of bounds, `remove_edge` keeps the order of the remaining edges, `node_weight_mut`
  answers `None` out of bounds.
* `HashMap`: keys are distinct; the iteration order is arbitrary (C89 holds for every order).
* `Vec::with_capacity` panics above the capacity limit (a parameter), `resize_with` truncates or
  extends.
* `Duration::from_secs_f64` in each of its three historical variants.
* libm: theorems that need accuracy take `pow10_accurate`, `pow10_unit`, `sin_bounded`, `sin_zero`,
  `sin_accurate`, `cos_accurate`, `tan32_accurate`, `pow_int_accurate`, `tan_accurate` (Spec/Libm.v), `log10_accurate` (Spec/Decibel.v) as
  explicit hypotheses; each is met by `ideal_libm`, the correctly rounded library (lemmas `ideal_*`).
* `rand`: the value drawn is a parameter of `noise_process`, a multiple of 2^-24 in [0,1).
* overflow checks (debug build) or wrapping (release build) are a parameter where the result differs.

## 4. Not modelled

* `src/tools/mixer.rs` (commented out of `lib.rs`; refers to a type that does not exist).
* byte layout of WAV files (external `wav` crate), `std::io` errors, allocation failure,
  wall-clock performance, the statistical quality of `rand`.
* NaN payloads and signs; the platform's actual `libm`.
* `main` of bin2str (fixed file names, header and footer of the generated file) and file errors.
* constructors of smart pointers and plain field accessors without behaviour.
* threads: `Arc` counts are only changed by the calls of one history at a time.

## 5. Trusted base

Coq's kernel; the axioms listed by `Print Assumptions` (recorded in section 6, all from Coq's
standard library: classical reals and, through them, functional extensionality and classical
logic); Flocq's definitions of the float operations; our reading of the Rust source.

## 6. Axioms per theorem

Printed by `Print Assumptions` (theorem by theorem by tools/axioms.py; file by file in theories/Audit); all are axioms of Coq's standard library:
`ClassicalDedekindReals.sig_forall_dec` and `sig_not_dec` (the construction of the reals),
`FunctionalExtensionality.functional_extensionality_dep`, `Classical_Prop.classic`.

<!-- axioms -->

**no axioms** (22 theorems): `C10_mono_lossless`, `C12_mono_ignores_position`, `C41_delay_exact`, `C43_clone_same_delay_refuted`, `C43_delay_clone_length`, `C43_echo_clone_length`, `C57_passthrough`, `C57_zero`, `C59_block_panics_iff_shared`, `C63_toggles_involutive`, `C71_sounds_report_their_id`, `C73_remove_keeps_ids`, `C74_add_panics_iff_shared`, `C75_delivers_payload`, `C75_vec_reader`, `C77_bin2str_preserves_bytes`, `C82_bin2str_line_width`, `C89_process_mixes`, `C89_process_panics_if_shared`, `C90_clone_shares_sounds`, `C90_neither_can_process`, `C90_same_next_id`

**`ClassicalDedekindReals.sig_forall_dec`** (1 theorems): `C120_one_signal`

**`ClassicalDedekindReals.sig_forall_dec`, `FunctionalExtensionality.functional_extensionality_dep`** (9 theorems): `C107_adding_is_cheap`, `C119_convolution`, `C119_one_solution`, `C124_half_as_loud`, `C14_clerp_exact`, `C56_envelope_exact`, `C99_constant_exact`, `C99_follows_exact`, `C99_rises_refuted`

**`ClassicalDedekindReals.sig_forall_dec`, `ClassicalDedekindReals.sig_not_dec`, `FunctionalExtensionality.functional_extensionality_dep`** (26 theorems): `C108_tones_are_smooth`, `C119_tone`, `C122_harmonics`, `C122_no_even_harmonics`, `C124_folds`, `C124_sidebands`, `C51_lowpass_stable_exact`, `C51_lowpass_unit_dc_gain_exact`, `C52_highpass_dc_exact`, `C52_highpass_stable_exact`, `C53_corners`, `C53_from_corners`, `C54_bandpass_stable_exact`, `C54_feed_forward_zero_exact`, `C54_poles_inside`, `C91_filters_forget_exact`, `C91_highpass_gain_exact`, `C91_highpass_tone_exact`, `C91_lowpass_gain_exact`, `C91_lowpass_tone_exact`, `C91_resonance_peak_exact`, `C92_bandpass_corners_3dB_refuted`, `C92_bandpass_ends_exact`, `C92_bandpass_gain_exact`, `C92_bandpass_peak_exact`, `C92_bandpass_tone_exact`

**`ClassicalDedekindReals.sig_forall_dec`, `ClassicalDedekindReals.sig_not_dec`, `Classical_Prop.classic`, `FunctionalExtensionality.functional_extensionality_dep`** (368 theorems): `C01_u8_bytes`, `C01_u8_round_trip`, `C01_u8_value`, `C02_i16_bytes_meaning`, `C02_i16_bytes_round_trip`, `C02_i16_round_trip`, `C03_i24_round_trip`, `C04_i24_bytes_negative`, `C04_i24_bytes_read_iff`, `C04_i24_bytes_round_trip_refuted`, `C04_i24_bytes_written`, `C05_i16_accuracy`, `C05_i24_accuracy`, `C05_u8_accuracy`, `C06_encoders_in_type_range`, `C06_encoders_monotone`, `C06_nan`, `C06_saturation`, `C07_i24_bytes_modulo`, `C07_i24_in_range`, `C07_i24_range_iff`, `C07_i24_saturation_refuted`, `C07_i24_wraps`, `C08_mono_op_assign`, `C08_mono_sub_adds`, `C08_mono_sub_differs`, `C08_mono_sub_refuted`, `C08_new_is_silence`, `C09_new_is_silence`, `C09_stereo_mul_m_close`, `C09_stereo_mul_m_refuted`, `C09_stereo_op_channels`, `C100_echo_dies`, `C100_echo_dies_refuted`, `C100_echo_is_comb`, `C101_attack`, `C101_decay`, `C101_release`, `C101_release_time_refuted`, `C102_generator_block`, `C102_library_generators`, `C102_library_modifiers`, `C102_modifier_block`, `C102_one_block_sound`, `C102_product_block`, `C102_swap`, `C102_swap_shared`, `C103_complex_never_released`, `C103_note_ends_refuted`, `C103_simple_never_released`, `C103_voice_heard_refuted`, `C103_voice_primed`, `C104_complex_no_panic`, `C104_simple_no_panic`, `C105_chain_of_modifiers`, `C105_complex_sound_tone`, `C105_levels_multiply`, `C105_order_immaterial`, `C105_simple_sound_tone`, `C105_sound_is_pipeline`, `C106_branches_reach_output_refuted`, `C106_dataflow`, `C106_one_input_no_delay`, `C106_parallel_branches`, `C107_chord`, `C107_dry_wet_comb`, `C107_rack`, `C107_rack_any_history`, `C108_recorded_sine`, `C108_smooth`, `C108_tone`, `C109_cd_pitch_refuted`, `C109_heard_at_rounded_speed`, `C109_one_call_to_steady`, `C109_speed_is_rounded`, `C10_stereo_doubles`, `C10_stereo_lossless_refuted`, `C110_file`, `C110_quantum`, `C110_recording`, `C110_sine_through_file`, `C111_absolutely_summable`, `C111_convolution`, `C111_fourier`, `C111_order`, `C111_simple_sound`, `C111_superposition`, `C111_time_invariant`, `C112_square_accuracy`, `C113_sawtooth_sweep`, `C113_sine_sweep`, `C113_triangle_sweep_refuted`, `C114_branches`, `C114_no_delay`, `C114_order`, `C114_two_short_branches_refuted`, `C115_branches_of_modifiers`, `C115_dry_wet_comb`, `C116_loop_is_echo`, `C116_one_call_late`, `C116_order`, `C116_order_unchanged`, `C116_self_loop_refuted`, `C117_curve`, `C117_endless_tone`, `C117_loop_to_the_end_refuted`, `C117_no_drift`, `C117_tone`, `C118_held`, `C118_released`, `C118_shaped`, `C118_sine_note`, `C119_tone_floats`, `C119_tracks`, `C119_unit_feedback_refuted`, `C11_into_length`, `C11_mono_vec_round_trip`, `C11_stereo_vec_round_trip`, `C11_try_from_errors`, `C11_try_from_is_constructor`, `C11_try_from_prefix`, `C120_flow`, `C120_gain_one_piles_up`, `C120_resonance`, `C120_tone`, `C120_tracks`, `C121_alternating_corners_refuted`, `C121_bandpass_retuned`, `C121_bandpass_retuned_tone`, `C121_highpass_retuned`, `C121_highpass_retuned_tone`, `C121_lowpass_retuned`, `C121_lowpass_retuned_tone`, `C122_chord`, `C122_square_sound`, `C122_triangle_sound`, `C122_waveform`, `C123_8_bit_sounds`, `C123_mono_order`, `C123_mono_two_sounds`, `C123_on_a_grid`, `C123_same_bits_refuted`, `C123_stereo_order`, `C123_stereo_two_sounds`, `C124_block`, `C124_chord`, `C124_same_frequency`, `C124_through_a_chain`, `C124_two_sines`, `C125_any_rate`, `C125_half_speed`, `C125_own_rate`, `C125_tenths_refuted`, `C125_whole_speed`, `C126_clip_lowest_refuted`, `C126_deeper_and_back`, `C126_deeper_lowest_refuted`, `C126_part_of_a_frame`, `C126_rate_refuted`, `C126_same_file`, `C127_already`, `C127_constant_refuted`, `C127_order`, `C127_short_constant_refuted`, `C127_twice_8_bit`, `C127_waveform`, `C127_waveform_8_bit`, `C12_pan_clamp_hi`, `C12_pan_clamp_lo`, `C12_pan_types_agree`, `C13_pan_dbs`, `C13_pan_directions`, `C13_pan_left_refuted`, `C14_clamp`, `C14_clerp_at_x1`, `C14_clerp_outside`, `C15_round_trip_refuted`, `C15_samples_seconds_round_trip`, `C16_seconds_to_samples_accurate`, `C16_seconds_to_samples_monotone`, `C17_db_laws_exact`, `C18_normalize_flat`, `C18_normalize_length`, `C18_normalize_peak`, `C18_normalize_silence`, `C18_normalize_single`, `C19_no_data_refuted`, `C19_write_errors`, `C19_writer_failure`, `C20_reencode`, `C20_rewrite_stable`, `C20_round_trip`, `C21_read_lengths`, `C21_read_round_robin`, `C21_read_zero_channels`, `C22_clip_range`, `C22_no_clip_fits_refuted`, `C22_write_clip_fits`, `C23_channel_count`, `C23_wrap_panics`, `C24_unity_identity`, `C25_long_refuted`, `C25_never_panics`, `C25_panic_iff`, `C25_panics_refuted`, `C26_peak`, `C26_peak_history`, `C27_bad_loop`, `C27_loop_invariant`, `C27_loop_panic_iff`, `C27_unity_loop`, `C28_swapped_bounds`, `C28_zero_end_loops_refuted`, `C29_ends`, `C29_long_track_sticks_refuted`, `C29_silence_is_permanent`, `C30_saw_negative_refuted`, `C30_saw_range`, `C31_saw_drift`, `C31_saw_tuning`, `C32_tri_range`, `C33_clone_inverted_refuted`, `C33_get_frequency_refuted`, `C33_slope_parity`, `C33_slope_turns`, `C34_square_period`, `C34_square_period_int`, `C34_square_values`, `C35_catch_up_refuted`, `C35_dc_refuted`, `C36_96000_panics`, `C36_high_panics_refuted`, `C36_sine_range`, `C37_sine_negative_silent`, `C38_noise_range`, `C39_get_set`, `C39_phase_kept`, `C40_clone_restarts`, `C40_monowav_clone_restarts`, `C41_delay_new_state`, `C42_delay_length`, `C42_from_secs`, `C42_get_delay_round_trip`, `C44_echo_new_state`, `C44_echo_recurrence`, `C44_echo_short_panics`, `C45_echo_bounded`, `C46_adsr_gain_range`, `C46_adsr_next_call`, `C46_adsr_phases`, `C46_adsr_stopped_release`, `C46_adsr_stopped_silent`, `C47_attack_completes`, `C47_attack_completes_refuted`, `C47_attack_linear`, `C48_release_completes`, `C48_release_completes_refuted`, `C48_release_infinite`, `C48_release_linear`, `C48_release_stalls`, `C49_nan_forever`, `C49_zero_decay_nan`, `C50_highpass_clamped`, `C50_lowpass_clamped`, `C50_setters`, `C52_highpass_coefficients_cancel`, `C55_generic_difference_equation`, `C55_generic_panics`, `C56_envelope_range`, `C57_gain`, `C58_adsr`, `C58_bandpass`, `C58_envelope`, `C58_generic`, `C58_highpass`, `C58_lowpass`, `C59_block_history`, `C60_built_sound`, `C60_built_sound_is_series`, `C60_simple_sound_is_series`, `C60_simple_sound_step`, `C60_unshared_series`, `C61_complex_pause`, `C61_simple_pause`, `C62_complex_mute`, `C62_simple_mute`, `C63_complex_id`, `C63_complex_switches`, `C63_gain_accessors`, `C63_simple_id`, `C63_simple_switches`, `C64_clone_plays_like_original_refuted`, `C64_complex_clone_panics`, `C64_simple_clone_silent`, `C65_edits_total`, `C65_order_kept`, `C65_order_well_formed`, `C66_complete_when_one_input`, `C66_every_fed_block_processed_refuted`, `C67_inputs_first_refuted`, `C67_topological_when_one_input`, `C68_no_source`, `C69_unconnected_accumulates`, `C70_linear_sound`, `C70_same_as_simple`, `C71_issued`, `C71_issued_once`, `C71_registered`, `C72_output_always_empty`, `C72_process_fills_output_refuted`, `C73_id_survives_history`, `C73_removed_has_no_id_refuted`, `C74_add_twice_panics`, `C74_handles_accounted`, `C76_exact_difference`, `C76_f32_tolerance`, `C76_f64_tolerance`, `C76_nan_is_never_equal`, `C76_reflexive`, `C76_symmetric`, `C78_seam_at_track_end`, `C78_seam_inside_track`, `C78_seam_refuted`, `C79_no_channels_panics`, `C79_write_then_play`, `C80_sine_accuracy`, `C80_sine_sample`, `C81_decay_completes`, `C81_decay_completes_refuted`, `C81_decay_linear`, `C83_highpass_f32_bounded`, `C83_lowpass_f32_bounded`, `C84_highpass_f32_stable_refuted`, `C84_lowpass_f32_stable_refuted`, `C85_highpass_constant_residue`, `C85_highpass_removes_dc_refuted`, `C86_bandpass_blocks_period_two`, `C86_bandpass_difference_equation`, `C86_highpass_difference_equation`, `C86_lowpass_difference_equation`, `C87_bandpass_asked_corners_bounded`, `C87_bandpass_f32_bounded`, `C88_corners_f64`, `C88_corners_round_trip`, `C88_setters`, `C89_gain_is_last_set`, `C91_lowpass_cutoff_3dB_refuted`, `C92_bandpass_unit_gain_refuted`, `C93_bandpass_tracks`, `C93_highpass_tracks`, `C93_lowpass_tracks`, `C94_bandpass_tone`, `C94_highpass_tone`, `C94_lowpass_tone`, `C95_db_round_trip`, `C95_db_to_linear`, `C95_gain_round_trip`, `C95_linear_to_db`, `C95_normalize_to_db`, `C96_pan_law`, `C96_right_is_louder_refuted`, `C97_sawtooth_accuracy`, `C97_set_same_frequency_refuted`, `C97_triangle_accuracy`, `C98_neighbours_refuted`, `C98_playback`, `C98_slow_playback_ends_refuted`, `C99_follows`

<!-- /axioms -->
