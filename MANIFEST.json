{
 "claims": [
  {
   "property": "C01",
   "status": "proved",
   "theorems": [
    "C01_u8_round_trip",
    "C01_u8_bytes",
    "C01_u8_value"
   ],
   "note": "all 256 bytes, both entry points; decoded value exact"
  },
  {
   "property": "C02",
   "status": "proved",
   "theorems": [
    "C02_i16_round_trip",
    "C02_i16_bytes_round_trip",
    "C02_i16_bytes_meaning"
   ],
   "note": "all 65536 values and byte pairs; bytes related to two's complement by an independent spec"
  },
  {
   "property": "C03",
   "status": "proved",
   "theorems": [
    "C03_i24_round_trip"
   ],
   "note": "all 2^24 values, analytic error bound (no enumeration)"
  },
  {
   "property": "C04",
   "status": "proved",
   "theorems": [
    "C04_i24_bytes_written",
    "C04_i24_bytes_read_iff",
    "C04_i24_bytes_negative",
    "C04_i24_bytes_round_trip_refuted"
   ],
   "note": "the relied-on round trip is refuted: it holds exactly for v >= 0"
  },
  {
   "property": "C05",
   "status": "proved",
   "theorems": [
    "C05_i16_accuracy",
    "C05_u8_accuracy",
    "C05_i24_accuracy"
   ],
   "note": ""
  },
  {
   "property": "C06",
   "status": "proved",
   "theorems": [
    "C06_encoders_monotone",
    "C06_encoders_in_type_range",
    "C06_saturation",
    "C06_nan"
   ],
   "note": "including infinities; NaN encodes to 0"
  },
  {
   "property": "C07",
   "status": "proved",
   "theorems": [
    "C07_i24_in_range",
    "C07_i24_saturation_refuted",
    "C07_i24_wraps",
    "C07_i24_range_iff",
    "C07_i24_bytes_modulo"
   ],
   "note": "range for |s| <= 1; relied-on saturation outside is refuted"
  },
  {
   "property": "C08",
   "status": "proved",
   "theorems": [
    "C08_mono_op_assign",
    "C08_mono_sub_adds",
    "C08_mono_sub_differs",
    "C08_mono_sub_refuted",
    "C08_new_is_silence"
   ],
   "note": "relied-on law a - b == (a -= b) refuted; exact value of both subtractions"
  },
  {
   "property": "C09",
   "status": "proved",
   "theorems": [
    "C09_stereo_op_channels",
    "C09_stereo_mul_m_refuted",
    "C09_stereo_mul_m_close",
    "C09_new_is_silence"
   ],
   "note": "*= f64 differs from * f64 (refuted), within a relative 2^-22"
  },
  {
   "property": "C10",
   "status": "proved",
   "theorems": [
    "C10_mono_lossless",
    "C10_stereo_doubles",
    "C10_stereo_lossless_refuted"
   ],
   "note": "Stereo round trip refuted: doubles, relative error 2^-21 over the normal range"
  },
  {
   "property": "C11",
   "status": "proved",
   "theorems": [
    "C11_try_from_errors",
    "C11_try_from_prefix",
    "C11_into_length",
    "C11_mono_vec_round_trip",
    "C11_stereo_vec_round_trip",
    "C11_try_from_is_constructor"
   ],
   "note": ""
  },
  {
   "property": "C12",
   "status": "proved",
   "theorems": [
    "C12_pan_types_agree",
    "C12_pan_clamp_hi",
    "C12_pan_clamp_lo",
    "C12_mono_ignores_position"
   ],
   "note": "bit-exact, every libm, infinities included"
  },
  {
   "property": "C13",
   "status": "proved",
   "theorems": [
    "C13_pan_dbs",
    "C13_pan_directions",
    "C13_pan_left_refuted"
   ],
   "note": "relied-on direction refuted; for every libm whose pow(10,.) is accurate to 2^-40 (satisfied by the correctly rounded one)"
  },
  {
   "property": "C14",
   "status": "proved",
   "theorems": [
    "C14_clamp",
    "C14_clerp_outside",
    "C14_clerp_at_x1",
    "C14_clerp_exact"
   ],
   "note": "float clamp/clerp bit-exact; between/monotone/ends of clerp over the reals (as stated)"
  },
  {
   "property": "C15",
   "status": "proved",
   "theorems": [
    "C15_samples_seconds_round_trip",
    "C15_round_trip_refuted"
   ],
   "note": "round trip refuted for every n in the range; all three std rounding modes of Duration::from_secs_f64"
  },
  {
   "property": "C16",
   "status": "proved",
   "theorems": [
    "C16_seconds_to_samples_accurate",
    "C16_seconds_to_samples_monotone"
   ],
   "note": ""
  },
  {
   "property": "C17",
   "status": "proved",
   "theorems": [
    "C17_db_laws_exact"
   ],
   "note": "exact arithmetic, as stated"
  },
  {
   "property": "C18",
   "status": "proved",
   "theorems": [
    "C18_normalize_peak",
    "C18_normalize_flat",
    "C18_normalize_silence",
    "C18_normalize_single",
    "C18_normalize_length"
   ],
   "note": ""
  },
  {
   "property": "C19",
   "status": "proved",
   "theorems": [
    "C19_write_errors",
    "C19_writer_failure",
    "C19_no_data_refuted"
   ],
   "note": "documented 'no data' error refuted; no input panics"
  },
  {
   "property": "C20",
   "status": "proved",
   "theorems": [
    "C20_round_trip",
    "C20_reencode",
    "C20_rewrite_stable"
   ],
   "note": "24-bit re-encoding needs the integers to fit 24 bits (the container stores no more)"
  },
  {
   "property": "C21",
   "status": "proved",
   "theorems": [
    "C21_read_round_robin",
    "C21_read_lengths",
    "C21_read_zero_channels"
   ],
   "note": "complete characterisation of every track position"
  },
  {
   "property": "C22",
   "status": "proved",
   "theorems": [
    "C22_clip_range",
    "C22_write_clip_fits",
    "C22_no_clip_fits_refuted"
   ],
   "note": "NaN passes through and is encoded as 0"
  },
  {
   "property": "C23",
   "status": "proved",
   "theorems": [
    "C23_channel_count",
    "C23_wrap_panics"
   ],
   "note": ""
  },
  {
   "property": "C24",
   "status": "proved",
   "theorems": [
    "C24_unity_identity"
   ],
   "note": "samples bounded by 2^126 so that differences do not overflow"
  },
  {
   "property": "C25",
   "status": "proved",
   "theorems": [
    "C25_panic_iff",
    "C25_never_panics",
    "C25_panics_refuted",
    "C25_long_refuted"
   ],
   "note": "relied-on claim refuted; exact set of panicking states for tracks up to 2^24 samples"
  },
  {
   "property": "C26",
   "status": "proved",
   "theorems": [
    "C26_peak",
    "C26_peak_history"
   ],
   "note": "single call from any non-negative finite position, and over every history with non-negative finite speeds"
  },
  {
   "property": "C27",
   "status": "proved",
   "theorems": [
    "C27_loop_panic_iff",
    "C27_loop_invariant",
    "C27_unity_loop",
    "C27_bad_loop"
   ],
   "note": "per-history invariant, exact panic condition, exact unity output, and bad loops"
  },
  {
   "property": "C28",
   "status": "proved",
   "theorems": [
    "C28_zero_end_loops_refuted",
    "C28_swapped_bounds"
   ],
   "note": "documented meaning refuted"
  },
  {
   "property": "C29",
   "status": "proved",
   "theorems": [
    "C29_silence_is_permanent",
    "C29_ends",
    "C29_long_track_sticks_refuted"
   ],
   "note": "termination for tracks up to 2^24 samples; refuted for longer ones"
  },
  {
   "property": "C30",
   "status": "proved",
   "theorems": [
    "C30_saw_range",
    "C30_saw_negative_refuted"
   ],
   "note": "every history with frequencies in [0,24000] Hz; and the converse: every frequency in [-24000,-2^-20] Hz eventually leaves [-1,1] (C30_saw_negative_refuted)"
  },
  {
   "property": "C31",
   "status": "proved",
   "theorems": [
    "C31_saw_drift",
    "C31_saw_tuning"
   ],
   "note": "rounding drift against n*irate, and tuning error against 2nf/48000 modulo 2"
  },
  {
   "property": "C32",
   "status": "proved",
   "theorems": [
    "C32_tri_range"
   ],
   "note": "every history with |f| <= 24000"
  },
  {
   "property": "C33",
   "status": "proved",
   "theorems": [
    "C33_slope_parity",
    "C33_get_frequency_refuted",
    "C33_clone_inverted_refuted",
    "C33_slope_turns"
   ],
   "note": "complete characterisation; the relied-on behaviour is refuted for every audible frequency: the reported frequency turns negative, and a clone taken then plays the inverted wave"
  },
  {
   "property": "C34",
   "status": "proved",
   "theorems": [
    "C34_square_values",
    "C34_square_period",
    "C34_square_period_int"
   ],
   "note": "values for every history; exact period and duty for every integer half period"
  },
  {
   "property": "C35",
   "status": "proved",
   "theorems": [
    "C35_catch_up_refuted",
    "C35_dc_refuted"
   ],
   "note": "characterisation; the relied-on immediate effect is refuted (catch-up, and constant output from 48 kHz)"
  },
  {
   "property": "C36",
   "status": "proved",
   "theorems": [
    "C36_sine_range",
    "C36_high_panics_refuted",
    "C36_96000_panics"
   ],
   "note": "any sin bounded by 1; panics for every f in [48010, 2^40] Hz"
  },
  {
   "property": "C37",
   "status": "proved",
   "theorems": [
    "C37_sine_negative_silent"
   ],
   "note": "any sin bounded by 1 with sin 0 = 0; any number of calls"
  },
  {
   "property": "C38",
   "status": "proved",
   "theorems": [
    "C38_noise_range"
   ],
   "note": "the random engine is external: its outputs are assumed to be multiples of 2^-24 in [0,1)"
  },
  {
   "property": "C39",
   "status": "proved",
   "theorems": [
    "C39_get_set",
    "C39_phase_kept"
   ],
   "note": "all four generators, set_frequency and new"
  },
  {
   "property": "C40",
   "status": "proved",
   "theorems": [
    "C40_clone_restarts",
    "C40_monowav_clone_restarts"
   ],
   "note": "state equality with a fresh object, hence equality of all later behaviour; triangle up to the slope sign (C33)"
  },
  {
   "property": "C41",
   "status": "proved",
   "theorems": [
    "C41_delay_exact",
    "C41_delay_new_state"
   ],
   "note": ""
  },
  {
   "property": "C42",
   "status": "proved",
   "theorems": [
    "C42_delay_length",
    "C42_get_delay_round_trip",
    "C42_from_secs"
   ],
   "note": "Nearest up to a half plus 1/32 sample for durations below 2^32 s; the round trip is proved for lengths up to 2^32 under all three ways the Rust standard library has converted float seconds to Duration."
  },
  {
   "property": "C43",
   "status": "proved",
   "theorems": [
    "C43_delay_clone_length",
    "C43_echo_clone_length",
    "C43_clone_same_delay_refuted"
   ],
   "note": "The natural expectation is violated: a clone is 48000 times as long (C43_clone_same_delay_refuted)."
  },
  {
   "property": "C44",
   "status": "proved",
   "theorems": [
    "C44_echo_recurrence",
    "C44_echo_new_state",
    "C44_echo_short_panics"
   ],
   "note": "Echo truncates where Delay rounds, so an Echo of one sample's duration (20833 ns) panics on its first call."
  },
  {
   "property": "C45",
   "status": "proved",
   "theorems": [
    "C45_echo_bounded"
   ],
   "note": "For every f32 bound B >= 2^-125; no rounding slack is needed."
  },
  {
   "property": "C46",
   "status": "proved",
   "theorems": [
    "C46_adsr_gain_range",
    "C46_adsr_next_call",
    "C46_adsr_phases",
    "C46_adsr_stopped_silent",
    "C46_adsr_stopped_release"
   ],
   "note": "For every history of process and release calls after new; hypotheses: positive durations below 2^32 s, sustain level not -infinity dB, 10^y in [0,1] for y <= 0."
  },
  {
   "property": "C47",
   "status": "proved",
   "theorems": [
    "C47_attack_linear",
    "C47_attack_completes",
    "C47_attack_completes_refuted"
   ],
   "note": "The natural expectation is violated from 700 s on (C47_attack_completes_refuted).  Between 699 s and 700 s nothing is claimed."
  },
  {
   "property": "C48",
   "status": "proved",
   "theorems": [
    "C48_release_completes",
    "C48_release_linear",
    "C48_release_infinite",
    "C48_release_stalls",
    "C48_release_completes_refuted"
   ],
   "note": "The natural expectation is violated (C48_release_completes_refuted, with a concrete parameter set); the threshold theorem gives when it holds."
  },
  {
   "property": "C49",
   "status": "proved",
   "theorems": [
    "C49_zero_decay_nan",
    "C49_nan_forever"
   ],
   "note": "The two halves: new yields a NaN decay step, and from a NaN decay step every later output of every history is NaN."
  },
  {
   "property": "C50",
   "status": "proved",
   "theorems": [
    "C50_lowpass_clamped",
    "C50_highpass_clamped",
    "C50_setters"
   ],
   "note": "LowPass and HighPass, any libm, any history of setters, samples and clones, NaN and infinities included"
  },
  {
   "property": "C51",
   "status": "proved",
   "theorems": [
    "C51_lowpass_stable_exact",
    "C51_lowpass_unit_dc_gain_exact"
   ],
   "note": "exact arithmetic, as the property says: coefficients and recurrence of lowpass.rs read over the reals; explicit bound by an energy argument. The f32 behaviour is C83 and C84"
  },
  {
   "property": "C52",
   "status": "proved",
   "theorems": [
    "C52_highpass_coefficients_cancel",
    "C52_highpass_stable_exact",
    "C52_highpass_dc_exact"
   ],
   "note": "coefficient antisymmetry is for the f32 program, any libm; stability and DC blocking in exact arithmetic. What f32 leaves of a constant is C85"
  },
  {
   "property": "C53",
   "status": "proved",
   "theorems": [
    "C53_corners",
    "C53_from_corners"
   ],
   "note": "exact arithmetic, as the property says"
  },
  {
   "property": "C54",
   "status": "proved",
   "theorems": [
    "C54_bandpass_stable_exact",
    "C54_poles_inside",
    "C54_feed_forward_zero_exact"
   ],
   "note": "exact arithmetic, as the property says; explicit bound from the two poles"
  },
  {
   "property": "C55",
   "status": "proved",
   "theorems": [
    "C55_generic_difference_equation",
    "C55_generic_panics"
   ],
   "note": ""
  },
  {
   "property": "C56",
   "status": "proved",
   "theorems": [
    "C56_envelope_range",
    "C56_envelope_exact"
   ],
   "note": "f32, needs the platform tanf accurate to 2^-20 on [0,2/3] (hypothesis, satisfied by the correctly rounded libm); exact part needs nothing"
  },
  {
   "property": "C57",
   "status": "proved",
   "theorems": [
    "C57_gain",
    "C57_passthrough",
    "C57_zero"
   ],
   "note": ""
  },
  {
   "property": "C58",
   "status": "proved",
   "theorems": [
    "C58_lowpass",
    "C58_highpass",
    "C58_bandpass",
    "C58_envelope",
    "C58_generic",
    "C58_adsr"
   ],
   "note": "clone equals the newly built filter, so equal on all later inputs"
  },
  {
   "property": "C59",
   "status": "proved",
   "theorems": [
    "C59_block_history",
    "C59_block_panics_iff_shared"
   ],
   "note": "For any generator/modifier/interactor (arbitrary types and step functions, panicking ones included) and any history of prime/process/share/unshare, the block equals a specification keeping the list of pending inputs; panics iff a part is shared."
  },
  {
   "property": "C60",
   "status": "proved",
   "theorems": [
    "C60_simple_sound_is_series",
    "C60_simple_sound_step",
    "C60_unshared_series",
    "C60_built_sound",
    "C60_built_sound_is_series"
   ],
   "note": "Any heap, number of modifiers, block behaviour and input history; shared blocks are silence (generator) or skipped (modifiers). Hypothesis: handle counts are at least the number of handles held (Rust's Arc accounting)."
  },
  {
   "property": "C61",
   "status": "proved",
   "theorems": [
    "C61_simple_pause",
    "C61_complex_pause"
   ],
   "note": "Whole histories, both sounds: results equal those of the history with the paused process calls deleted, 0 inserted."
  },
  {
   "property": "C62",
   "status": "proved",
   "theorems": [
    "C62_simple_mute",
    "C62_complex_mute"
   ],
   "note": "Whole histories, both sounds: results equal those of the history without mute switches, masked by 0 while muted; state differs only in the flag."
  },
  {
   "property": "C63",
   "status": "proved",
   "theorems": [
    "C63_simple_id",
    "C63_complex_id",
    "C63_simple_switches",
    "C63_complex_switches",
    "C63_toggles_involutive",
    "C63_gain_accessors"
   ],
   "note": "Histories of all operations, both sounds."
  },
  {
   "property": "C64",
   "status": "proved",
   "theorems": [
    "C64_simple_clone_silent",
    "C64_complex_clone_panics",
    "C64_clone_plays_like_original_refuted"
   ],
   "note": "The natural expectation is violated (C64_clone_plays_like_original_refuted); the actual behaviour is characterised for every sound."
  },
  {
   "property": "C65",
   "status": "proved",
   "theorems": [
    "C65_order_well_formed",
    "C65_edits_total",
    "C65_order_kept"
   ],
   "note": "Every edit history, cyclic graphs included. Connections are read off the history, independent of the graph code. petgraph's DiGraph is modelled (see DESIGN.md)."
  },
  {
   "property": "C66",
   "status": "proved",
   "theorems": [
    "C66_complete_when_one_input",
    "C66_every_fed_block_processed_refuted"
   ],
   "note": "The natural expectation is violated in general (C66_every_fed_block_processed_refuted, for an acyclic graph); it holds when no block has two inputs."
  },
  {
   "property": "C67",
   "status": "proved",
   "theorems": [
    "C67_topological_when_one_input",
    "C67_inputs_first_refuted"
   ],
   "note": "The natural expectation is violated in general (C67_inputs_first_refuted, for an acyclic graph); it holds when no block has two inputs."
  },
  {
   "property": "C68",
   "status": "proved",
   "theorems": [
    "C68_no_source"
   ],
   "note": "Every graph without a source, whatever the edit history."
  },
  {
   "property": "C69",
   "status": "proved",
   "theorems": [
    "C69_unconnected_accumulates"
   ],
   "note": "Every input sequence, including the connection input->output made afterwards."
  },
  {
   "property": "C70",
   "status": "proved",
   "theorems": [
    "C70_linear_sound",
    "C70_same_as_simple"
   ],
   "note": "Any number of blocks, behaviour, gains and input history; equality with SimpleSound up to negative zeros, which the gain blocks normalise (0 + x)."
  },
  {
   "property": "C71",
   "status": "proved",
   "theorems": [
    "C71_sounds_report_their_id",
    "C71_registered",
    "C71_issued",
    "C71_issued_once"
   ],
   "note": "For every sample format, every Sound implementation that reports the id it was registered with (both library sounds do, C71_sounds_report_their_id) and every history with fewer than 2^64 adds: registered entries are exactly the adds not followed by a removal of their id; ids never repeat. Above 2^64 adds the counter overflows (modelled, outside the claim)."
  },
  {
   "property": "C72",
   "status": "proved",
   "theorems": [
    "C72_output_always_empty",
    "C72_process_fills_output_refuted"
   ],
   "note": "The natural expectation is violated (C72_process_fills_output_refuted); proved instead: for every history the output is empty and process changes nothing."
  },
  {
   "property": "C73",
   "status": "proved",
   "theorems": [
    "C73_remove_keeps_ids",
    "C73_id_survives_history",
    "C73_removed_has_no_id_refuted"
   ],
   "note": "The natural expectation is violated (C73_removed_has_no_id_refuted); proved instead: removal changes no sound's id, and in every history a sound keeps the id of its last add."
  },
  {
   "property": "C74",
   "status": "proved",
   "theorems": [
    "C74_add_panics_iff_shared",
    "C74_handles_accounted",
    "C74_add_twice_panics"
   ],
   "note": "Handles are counted explicitly; Weak handles do not exist in the model (the library creates none)."
  },
  {
   "property": "C75",
   "status": "proved",
   "theorems": [
    "C75_vec_reader",
    "C75_delivers_payload"
   ],
   "note": "Reader modelled with its while loop; bytes beyond the count are shown untouched through read_spec."
  },
  {
   "property": "C76",
   "status": "proved",
   "theorems": [
    "C76_f32_tolerance",
    "C76_f64_tolerance",
    "C76_nan_is_never_equal",
    "C76_symmetric",
    "C76_exact_difference",
    "C76_reflexive"
   ],
   "note": "For T = f32 and f64 with abs the type's own abs; other type arguments are not modelled. Infinite arguments are covered by symmetry and C76_reflexive only as stated."
  },
  {
   "property": "C77",
   "status": "proved",
   "theorems": [
    "C77_bin2str_preserves_bytes"
   ],
   "note": "File errors and the surrounding main function (fixed file names, header and footer) are not modelled. read_text is an independent reader that rejects empty elements and white space inside numbers."
  },
  {
   "property": "C78",
   "status": "proved",
   "theorems": [
    "C78_seam_at_track_end",
    "C78_seam_inside_track",
    "C78_seam_refuted"
   ],
   "note": "relied-on claim refuted by both seam characterisations"
  },
  {
   "property": "C79",
   "status": "proved",
   "theorems": [
    "C79_write_then_play",
    "C79_no_channels_panics"
   ],
   "note": "the container bytes of the wav crate are external; header and sample vector are what is passed on"
  },
  {
   "property": "C80",
   "status": "proved",
   "theorems": [
    "C80_sine_accuracy",
    "C80_sine_sample"
   ],
   "note": "any sin with |error| <= 2^-50 on [-8,8]; the libm predicate is satisfied by the correctly rounded library (C80_ex)"
  },
  {
   "property": "C81",
   "status": "proved",
   "theorems": [
    "C81_decay_completes",
    "C81_decay_linear",
    "C81_decay_completes_refuted"
   ],
   "note": "The natural expectation is violated (C81_decay_completes_refuted, with a concrete parameter set); the threshold theorem gives when it holds."
  },
  {
   "property": "C82",
   "status": "proved",
   "theorems": [
    "C82_bin2str_line_width"
   ],
   "note": "Line width counted in characters, newline excluded."
  },
  {
   "property": "C83",
   "status": "proved",
   "theorems": [
    "C83_lowpass_f32_bounded",
    "C83_highpass_f32_bounded"
   ],
   "note": "program arithmetic (f64 coefficients rounded to f32, f32 recurrence); hypotheses on libm: cos_accurate, pow_int_accurate (met by correctly rounded functions); fresh filter, no parameter change in between"
  },
  {
   "property": "C84",
   "status": "proved",
   "theorems": [
    "C84_lowpass_f32_stable_refuted",
    "C84_highpass_f32_stable_refuted"
   ],
   "note": "the natural expectation is refuted for both filters with a concrete setting; between 20 and 600 Hz neither C83 nor C84 applies"
  },
  {
   "property": "C85",
   "status": "proved",
   "theorems": [
    "C85_highpass_constant_residue",
    "C85_highpass_removes_dc_refuted"
   ],
   "note": "residue statement for all states with a constant input history; the expectation that DC is removed is refuted by an exact fixed state"
  },
  {
   "property": "C86",
   "status": "proved",
   "theorems": [
    "C86_lowpass_difference_equation",
    "C86_highpass_difference_equation",
    "C86_bandpass_difference_equation",
    "C86_bandpass_blocks_period_two"
   ],
   "note": "all coefficients, inputs and positions, from a silent history (as new, clone and the constructors leave it)"
  },
  {
   "property": "C87",
   "status": "proved",
   "theorems": [
    "C87_bandpass_f32_bounded",
    "C87_bandpass_asked_corners_bounded"
   ],
   "note": "corner pairs in [20 Hz, 20 kHz], any accurate tan; f64 coefficients, f32 samples, every rounding included"
  },
  {
   "property": "C88",
   "status": "proved",
   "theorems": [
    "C88_setters",
    "C88_corners_f64",
    "C88_corners_round_trip"
   ],
   "note": "program arithmetic (f64), any libm (only the exactly specified square root is used); the coefficients are characterised by C87/C86"
  },
  {
   "property": "C89",
   "status": "proved",
   "theorems": [
    "C89_process_mixes",
    "C89_process_panics_if_shared",
    "C89_gain_is_last_set"
   ],
   "note": "any sample format and sound type, any iteration order of the map; the nonempty buffers it speaks of are unreachable through the API (C72), where process does nothing"
  },
  {
   "property": "C90",
   "status": "proved",
   "theorems": [
    "C90_clone_shares_sounds",
    "C90_neither_can_process",
    "C90_same_next_id"
   ],
   "note": "derived Clone: vectors copied, Arc handles counted"
  },
  {
   "property": "C91",
   "status": "proved",
   "theorems": [
    "C91_lowpass_tone_exact",
    "C91_highpass_tone_exact",
    "C91_filters_forget_exact",
    "C91_lowpass_gain_exact",
    "C91_highpass_gain_exact",
    "C91_lowpass_cutoff_3dB_refuted",
    "C91_resonance_peak_exact"
   ],
   "note": "Exact-arithmetic transfer functions of LowPass and HighPass (recurrences and coefficients of the source over the reals), settling from any state; gain bounds; \"3 dB down at the cutoff\" is refuted for every cutoff."
  },
  {
   "property": "C92",
   "status": "proved",
   "theorems": [
    "C92_bandpass_tone_exact",
    "C92_bandpass_gain_exact",
    "C92_bandpass_peak_exact",
    "C92_bandpass_unit_gain_refuted",
    "C92_bandpass_corners_3dB_refuted",
    "C92_bandpass_ends_exact"
   ],
   "note": "Exact-arithmetic transfer function of BandPass, its gain in closed form, peak and blocked ends; \"unit gain at the centre\" and \"corners 3 dB down\" are refuted in general."
  },
  {
   "property": "C93",
   "status": "proved",
   "theorems": [
    "C93_bandpass_tracks",
    "C93_lowpass_tracks",
    "C93_highpass_tracks"
   ],
   "note": "Tracking of the exact filters by the f32 filters for all inputs, with an explicit constant. The constants for LowPass and HighPass come from a worst-case analysis: they are small for high cutoffs and exceed 1 (say nothing useful) below roughly 1.5 kHz."
  },
  {
   "property": "C94",
   "status": "proved",
   "theorems": [
    "C94_lowpass_tone",
    "C94_highpass_tone",
    "C94_bandpass_tone"
   ],
   "note": "Frequency responses of C91/C92 carried over to the program's arithmetic up to the constants of C93; same remark on low cutoffs."
  },
  {
   "property": "C95",
   "status": "proved",
   "theorems": [
    "C95_db_to_linear",
    "C95_linear_to_db",
    "C95_db_round_trip",
    "C95_gain_round_trip",
    "C95_normalize_to_db"
   ],
   "note": "Float counterpart of C17 and of the level in C18, for every libm that is accurate enough."
  },
  {
   "property": "C96",
   "status": "proved",
   "theorems": [
    "C96_pan_law",
    "C96_right_is_louder_refuted"
   ],
   "note": "Complete level law per channel; the direction users expect is refuted for every pair of positions in the same half."
  },
  {
   "property": "C97",
   "status": "proved",
   "theorems": [
    "C97_triangle_accuracy",
    "C97_sawtooth_accuracy",
    "C97_set_same_frequency_refuted"
   ],
   "note": "accuracy holds; \"setting the same frequency is harmless\" refuted (C97_set_same_frequency_refuted)"
  },
  {
   "property": "C98",
   "status": "proved",
   "theorems": [
    "C98_playback",
    "C98_slow_playback_ends_refuted",
    "C98_neighbours_refuted"
   ],
   "note": "position, duration and interpolation hold up to the stated drift; \"every track ends\" and \"always the two neighbours\" refuted"
  },
  {
   "property": "C99",
   "status": "proved",
   "theorems": [
    "C99_follows",
    "C99_follows_exact",
    "C99_constant_exact",
    "C99_rises_refuted"
   ],
   "note": "tracks up to the decay of the past and the rounding; \"never falls while the input is above\" refuted"
  },
  {
   "property": "C100",
   "status": "proved",
   "theorems": [
    "C100_echo_is_comb",
    "C100_echo_dies",
    "C100_echo_dies_refuted"
   ],
   "note": "comb filter within a constant error; \"gain below one dies out\" characterised: at most 1/2 dies, above 1/2 never"
  },
  {
   "property": "C101",
   "status": "proved",
   "theorems": [
    "C101_attack",
    "C101_decay",
    "C101_release",
    "C101_release_time_refuted"
   ],
   "note": "the release-time reading is false and refuted (C101_release_time_refuted); shapes need pow10_accurate libm and |sustain| <= 2000 dB"
  },
  {
   "property": "C102",
   "status": "proved",
   "theorems": [
    "C102_generator_block",
    "C102_modifier_block",
    "C102_product_block",
    "C102_swap",
    "C102_swap_shared",
    "C102_library_generators",
    "C102_library_modifiers",
    "C102_one_block_sound"
   ],
   "note": "for the generators, modifiers and interactors of the library; closures of the user are covered by C59"
  },
  {
   "property": "C103",
   "status": "proved",
   "theorems": [
    "C103_simple_never_released",
    "C103_complex_never_released",
    "C103_note_ends_refuted",
    "C103_voice_heard_refuted",
    "C103_voice_primed"
   ],
   "note": "refutes that notes can be ended and that voices are heard, with what happens instead"
  },
  {
   "property": "C104",
   "status": "proved",
   "theorems": [
    "C104_simple_no_panic",
    "C104_complex_no_panic"
   ],
   "note": "sine frequencies 0..48000, unlooped tracks; the excluded arguments do panic (C25, C36, C44)"
  },
  {
   "property": "C105",
   "status": "proved",
   "theorems": [
    "C105_sound_is_pipeline",
    "C105_chain_of_modifiers",
    "C105_simple_sound_tone",
    "C105_complex_sound_tone",
    "C105_levels_multiply",
    "C105_order_immaterial"
   ],
   "note": "l_ok: cutoffs of 600 Hz or more (below, C83/C84 show that the f32 filters need not even be bounded), audible band-pass corners, echo gain below 1, at least one sample of echo, gains of at most 2^30; chain_amp bounds the overall gain by 2^90; libm accuracy assumptions as in C80, C93."
  },
  {
   "property": "C106",
   "status": "proved",
   "theorems": [
    "C106_dataflow",
    "C106_one_input_no_delay",
    "C106_parallel_branches",
    "C106_branches_reach_output_refuted"
   ],
   "note": "C106_branches_reach_output_refuted: three branches meeting only at the output, the longest loses its last block and is cut; the positive statements (any graph with delays read off the order; one input per block; parallel one-block branches) hold in full."
  },
  {
   "property": "C107",
   "status": "proved",
   "theorems": [
    "C107_rack_any_history",
    "C107_rack",
    "C107_adding_is_cheap",
    "C107_chord",
    "C107_dry_wet_comb"
   ],
   "note": "Sums of complex amplitudes for any number of parallel linear parts, from any history or built from scratch (then without panics); chord of sines with explicit error; comb identity. Ranges of the parts as in C105."
  },
  {
   "property": "C108",
   "status": "proved",
   "theorems": [
    "C108_smooth",
    "C108_tone",
    "C108_recorded_sine",
    "C108_tones_are_smooth"
   ],
   "note": "Any smooth curve, any tone, and the library's Sine; the end of the track (last held sample) and looped playback are outside the statement; the error at positions just below a power of two is bounded separately."
  },
  {
   "property": "C109",
   "status": "proved",
   "theorems": [
    "C109_speed_is_rounded",
    "C109_one_call_to_steady",
    "C109_heard_at_rounded_speed",
    "C109_cd_pitch_refuted"
   ],
   "note": "The relied-on statement is refuted (C109_cd_pitch_refuted) and replaced by the exact speed between powers of two, ties included."
  },
  {
   "property": "C110",
   "status": "proved",
   "theorems": [
    "C110_quantum",
    "C110_file",
    "C110_recording",
    "C110_sine_through_file"
   ],
   "note": "The external wav crate is outside the model (it is assumed to return the header and data it was given)."
  },
  {
   "property": "C111",
   "status": "proved",
   "theorems": [
    "C111_convolution",
    "C111_simple_sound",
    "C111_superposition",
    "C111_order",
    "C111_time_invariant",
    "C111_fourier",
    "C111_absolutely_summable"
   ],
   "note": "Error bounds are those of C105 (chain_err, chain_amp); LowPass and HighPass from 600 Hz on as in C93; time invariance is bit for bit up to the sign of zeros and for every f32 input."
  },
  {
   "property": "C112",
   "status": "proved",
   "theorems": [
    "C112_square_accuracy"
   ],
   "note": "C112_square_accuracy: exact equality with the square wave away from the edges"
  },
  {
   "property": "C113",
   "status": "proved",
   "theorems": [
    "C113_sine_sweep",
    "C113_sawtooth_sweep",
    "C113_triangle_sweep_refuted"
   ],
   "note": "sine and sawtooth follow the accumulated phase for every history; C113_triangle_sweep_refuted"
  },
  {
   "property": "C114",
   "status": "proved",
   "theorems": [
    "C114_order",
    "C114_no_delay",
    "C114_branches",
    "C114_two_short_branches_refuted"
   ],
   "note": "every graph of branches all but one of which are within one block of the longest is mixed without delays; C114_two_short_branches_refuted shows that the condition cannot be dropped"
  },
  {
   "property": "C115",
   "status": "proved",
   "theorems": [
    "C115_branches_of_modifiers",
    "C115_dry_wet_comb"
   ],
   "note": "tones through branches of linear modifiers, with all rounding errors"
  },
  {
   "property": "C116",
   "status": "proved",
   "theorems": [
    "C116_order_unchanged",
    "C116_order",
    "C116_one_call_late",
    "C116_loop_is_echo",
    "C116_self_loop_refuted"
   ],
   "note": "order and dataflow with feedback connections, the loop that is an Echo of one sample more; self-loops are refuted"
  },
  {
   "property": "C117",
   "status": "proved",
   "theorems": [
    "C117_curve",
    "C117_tone",
    "C117_no_drift",
    "C117_endless_tone",
    "C117_loop_to_the_end_refuted"
   ],
   "note": "C117_loop_to_the_end_refuted: a loop that ends with the track clicks at the seam"
  },
  {
   "property": "C118",
   "status": "proved",
   "theorems": [
    "C118_held",
    "C118_released",
    "C118_shaped",
    "C118_sine_note"
   ],
   "note": ""
  },
  {
   "property": "C119",
   "status": "proved",
   "theorems": [
    "C119_one_solution",
    "C119_tracks",
    "C119_convolution",
    "C119_tone",
    "C119_tone_floats",
    "C119_unit_feedback_refuted"
   ],
   "note": "C119_unit_feedback_refuted: with feedback of sum exactly 1 there is no bound for the output"
  },
  {
   "property": "C120",
   "status": "proved",
   "theorems": [
    "C120_one_signal",
    "C120_flow",
    "C120_tracks",
    "C120_tone",
    "C120_resonance",
    "C120_gain_one_piles_up"
   ],
   "note": "C120_gain_one_piles_up shows that the condition on the loop gain is needed; outputs assumed Ok as in C115 (a run that does not panic)"
  },
  {
   "property": "C121",
   "status": "proved",
   "theorems": [
    "C121_lowpass_retuned",
    "C121_highpass_retuned",
    "C121_bandpass_retuned",
    "C121_lowpass_retuned_tone",
    "C121_highpass_retuned_tone",
    "C121_bandpass_retuned_tone",
    "C121_alternating_corners_refuted"
   ],
   "note": "C121_alternating_corners_refuted: the parameters must be kept for a while; the amplitude X must allow for the remembered samples (10 times them for BandPass, pad_for times for the others)"
  },
  {
   "property": "C122",
   "status": "proved",
   "theorems": [
    "C122_chord",
    "C122_harmonics",
    "C122_waveform",
    "C122_no_even_harmonics",
    "C122_square_sound",
    "C122_triangle_sound"
   ],
   "note": "Chords, periodic waveforms with explicit harmonics, and a Square in a SimpleSound; from C111."
  },
  {
   "property": "C123",
   "status": "proved",
   "theorems": [
    "C123_mono_order",
    "C123_stereo_order",
    "C123_mono_two_sounds",
    "C123_stereo_two_sounds",
    "C123_on_a_grid",
    "C123_8_bit_sounds",
    "C123_same_bits_refuted"
   ],
   "note": "a bound for every order and bit-exact special cases; C123_same_bits_refuted shows that the bits may differ in general. About the loop on a buffer of any content (as C89): by C72 the buffer is empty after every history of the API"
  },
  {
   "property": "C124",
   "status": "proved",
   "theorems": [
    "C124_block",
    "C124_sidebands",
    "C124_half_as_loud",
    "C124_folds",
    "C124_chord",
    "C124_two_sines",
    "C124_same_frequency",
    "C124_through_a_chain"
   ],
   "note": "the block, its sidebands, and a SimpleSound of two sines and a chain"
  },
  {
   "property": "C125",
   "status": "proved",
   "theorems": [
    "C125_any_rate",
    "C125_own_rate",
    "C125_whole_speed",
    "C125_half_speed",
    "C125_tenths_refuted"
   ],
   "note": "speeds on the grid of the track's length; for other speeds C98 gives the drift, C125_tenths_refuted an instance of it"
  },
  {
   "property": "C126",
   "status": "proved",
   "theorems": [
    "C126_same_file",
    "C126_deeper_and_back",
    "C126_part_of_a_frame",
    "C126_rate_refuted",
    "C126_clip_lowest_refuted",
    "C126_deeper_lowest_refuted"
   ],
   "note": "same rate, clipping and the most negative integer are refuted; the writer of the wav crate is taken to succeed"
  },
  {
   "property": "C127",
   "status": "proved",
   "theorems": [
    "C127_waveform",
    "C127_waveform_8_bit",
    "C127_order",
    "C127_already",
    "C127_twice_8_bit",
    "C127_constant_refuted",
    "C127_short_constant_refuted"
   ],
   "note": "C127_constant_refuted and C127_short_constant_refuted refute that a constant track becomes silent"
  }
 ]
}
