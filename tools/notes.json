{
 "C01": [
  "proved",
  "all 256 bytes, both entry points; decoded value exact"
 ],
 "C02": [
  "proved",
  "all 65536 values and byte pairs; bytes related to two's complement by an independent spec"
 ],
 "C03": [
  "proved",
  "all 2^24 values, analytic error bound (no enumeration)"
 ],
 "C04": [
  "proved",
  "the relied-on round trip is refuted: it holds exactly for v >= 0"
 ],
 "C05": [
  "proved",
  ""
 ],
 "C06": [
  "proved",
  "including infinities; NaN encodes to 0"
 ],
 "C07": [
  "proved",
  "range for |s| <= 1; relied-on saturation outside is refuted"
 ],
 "C08": [
  "proved",
  "relied-on law a - b == (a -= b) refuted; exact value of both subtractions"
 ],
 "C09": [
  "proved",
  "*= f64 differs from * f64 (refuted), within a relative 2^-22"
 ],
 "C10": [
  "proved",
  "Stereo round trip refuted: doubles, relative error 2^-21 over the normal range"
 ],
 "C11": [
  "proved",
  ""
 ],
 "C12": [
  "proved",
  "bit-exact, every libm, infinities included"
 ],
 "C13": [
  "proved",
  "relied-on direction refuted; for every libm whose pow(10,.) is accurate to 2^-40 (satisfied by the correctly rounded one)"
 ],
 "C14": [
  "proved",
  "float clamp/clerp bit-exact; between/monotone/ends of clerp over the reals (as stated)"
 ],
 "C15": [
  "proved",
  "round trip refuted for every n in the range; all three std rounding modes of Duration::from_secs_f64"
 ],
 "C16": [
  "proved",
  ""
 ],
 "C17": [
  "proved",
  "exact arithmetic, as stated"
 ],
 "C18": [
  "proved",
  ""
 ],
 "C19": [
  "proved",
  "documented 'no data' error refuted; no input panics"
 ],
 "C20": [
  "proved",
  "24-bit re-encoding needs the integers to fit 24 bits (the container stores no more)"
 ],
 "C21": [
  "proved",
  "complete characterisation of every track position"
 ],
 "C22": [
  "proved",
  "NaN passes through and is encoded as 0"
 ],
 "C23": [
  "proved",
  ""
 ],
 "C24": [
  "proved",
  "samples bounded by 2^126 so that differences do not overflow"
 ],
 "C25": [
  "proved",
  "relied-on claim refuted; exact set of panicking states for tracks up to 2^24 samples"
 ],
 "C26": [
  "proved",
  "single call from any non-negative finite position, and over every history with non-negative finite speeds"
 ],
 "C27": [
  "proved",
  "per-history invariant, exact panic condition, exact unity output, and bad loops"
 ],
 "C28": [
  "proved",
  "documented meaning refuted"
 ],
 "C29": [
  "proved",
  "termination for tracks up to 2^24 samples; refuted for longer ones"
 ],
 "C78": [
  "proved",
  "relied-on claim refuted by both seam characterisations"
 ],
 "C79": [
  "proved",
  "the container bytes of the wav crate are external; header and sample vector are what is passed on"
 ],
 "C30": [
  "proved",
  "every history with frequencies in [0,24000] Hz; and the converse: every frequency in [-24000,-2^-20] Hz eventually leaves [-1,1] (C30_saw_negative_refuted)"
 ],
 "C31": [
  "proved",
  "rounding drift against n*irate, and tuning error against 2nf/48000 modulo 2"
 ],
 "C32": [
  "proved",
  "every history with |f| <= 24000"
 ],
 "C33": [
  "proved",
  "complete characterisation; the relied-on behaviour is refuted for every audible frequency: the reported frequency turns negative, and a clone taken then plays the inverted wave"
 ],
 "C34": [
  "proved",
  "values for every history; exact period and duty for every integer half period"
 ],
 "C35": [
  "proved",
  "characterisation; the relied-on immediate effect is refuted (catch-up, and constant output from 48 kHz)"
 ],
 "C36": [
  "proved",
  "any sin bounded by 1; panics for every f in [48010, 2^40] Hz"
 ],
 "C37": [
  "proved",
  "any sin bounded by 1 with sin 0 = 0; any number of calls"
 ],
 "C38": [
  "proved",
  "the random engine is external: its outputs are assumed to be multiples of 2^-24 in [0,1)"
 ],
 "C39": [
  "proved",
  "all four generators, set_frequency and new"
 ],
 "C40": [
  "proved",
  "state equality with a fresh object, hence equality of all later behaviour; triangle up to the slope sign (C33)"
 ],
 "C80": [
  "proved",
  "any sin with |error| <= 2^-50 on [-8,8]; the libm predicate is satisfied by the correctly rounded library (C80_ex)"
 ],
 "C41": [
  "proved",
  ""
 ],
 "C42": [
  "proved",
  "Nearest up to a half plus 1/32 sample for durations below 2^32 s; the round trip is proved for lengths up to 2^32 under all three ways the Rust standard library has converted float seconds to Duration."
 ],
 "C43": [
  "proved",
  "The natural expectation is violated: a clone is 48000 times as long (C43_clone_same_delay_refuted)."
 ],
 "C44": [
  "proved",
  "Echo truncates where Delay rounds, so an Echo of one sample's duration (20833 ns) panics on its first call."
 ],
 "C45": [
  "proved",
  "For every f32 bound B >= 2^-125; no rounding slack is needed."
 ],
 "C46": [
  "proved",
  "For every history of process and release calls after new; hypotheses: positive durations below 2^32 s, sustain level not -infinity dB, 10^y in [0,1] for y <= 0."
 ],
 "C47": [
  "proved",
  "The natural expectation is violated from 700 s on (C47_attack_completes_refuted).  Between 699 s and 700 s nothing is claimed."
 ],
 "C48": [
  "proved",
  "The natural expectation is violated (C48_release_completes_refuted, with a concrete parameter set); the threshold theorem gives when it holds."
 ],
 "C49": [
  "proved",
  "The two halves: new yields a NaN decay step, and from a NaN decay step every later output of every history is NaN."
 ],
 "C55": [
  "proved",
  ""
 ],
 "C57": [
  "proved",
  ""
 ],
 "C81": [
  "proved",
  "The natural expectation is violated (C81_decay_completes_refuted, with a concrete parameter set); the threshold theorem gives when it holds."
 ],
 "C50": [
  "proved",
  "LowPass and HighPass, any libm, any history of setters, samples and clones, NaN and infinities included"
 ],
 "C51": [
  "proved",
  "exact arithmetic, as the property says: coefficients and recurrence of lowpass.rs read over the reals; explicit bound by an energy argument. The f32 behaviour is C83 and C84"
 ],
 "C52": [
  "proved",
  "coefficient antisymmetry is for the f32 program, any libm; stability and DC blocking in exact arithmetic. What f32 leaves of a constant is C85"
 ],
 "C53": [
  "proved",
  "exact arithmetic, as the property says"
 ],
 "C54": [
  "proved",
  "exact arithmetic, as the property says; explicit bound from the two poles"
 ],
 "C56": [
  "proved",
  "f32, needs the platform tanf accurate to 2^-20 on [0,2/3] (hypothesis, satisfied by the correctly rounded libm); exact part needs nothing"
 ],
 "C58": [
  "proved",
  "clone equals the newly built filter, so equal on all later inputs"
 ],
 "C59": [
  "proved",
  "For any generator/modifier/interactor (arbitrary types and step functions, panicking ones included) and any history of prime/process/share/unshare, the block equals a specification keeping the list of pending inputs; panics iff a part is shared."
 ],
 "C60": [
  "proved",
  "Any heap, number of modifiers, block behaviour and input history; shared blocks are silence (generator) or skipped (modifiers). Hypothesis: handle counts are at least the number of handles held (Rust's Arc accounting)."
 ],
 "C61": [
  "proved",
  "Whole histories, both sounds: results equal those of the history with the paused process calls deleted, 0 inserted."
 ],
 "C62": [
  "proved",
  "Whole histories, both sounds: results equal those of the history without mute switches, masked by 0 while muted; state differs only in the flag."
 ],
 "C63": [
  "proved",
  "Histories of all operations, both sounds."
 ],
 "C64": [
  "proved",
  "The natural expectation is violated (C64_clone_plays_like_original_refuted); the actual behaviour is characterised for every sound."
 ],
 "C65": [
  "proved",
  "Every edit history, cyclic graphs included. Connections are read off the history, independent of the graph code. petgraph's DiGraph is modelled (see DESIGN.md)."
 ],
 "C66": [
  "proved",
  "The natural expectation is violated in general (C66_every_fed_block_processed_refuted, for an acyclic graph); it holds when no block has two inputs."
 ],
 "C67": [
  "proved",
  "The natural expectation is violated in general (C67_inputs_first_refuted, for an acyclic graph); it holds when no block has two inputs."
 ],
 "C68": [
  "proved",
  "Every graph without a source, whatever the edit history."
 ],
 "C69": [
  "proved",
  "Every input sequence, including the connection input->output made afterwards."
 ],
 "C70": [
  "proved",
  "Any number of blocks, behaviour, gains and input history; equality with SimpleSound up to negative zeros, which the gain blocks normalise (0 + x)."
 ],
 "C71": [
  "proved",
  "For every sample format, every Sound implementation that reports the id it was registered with (both library sounds do, C71_sounds_report_their_id) and every history with fewer than 2^64 adds: registered entries are exactly the adds not followed by a removal of their id; ids never repeat. Above 2^64 adds the counter overflows (modelled, outside the claim)."
 ],
 "C72": [
  "proved",
  "The natural expectation is violated (C72_process_fills_output_refuted); proved instead: for every history the output is empty and process changes nothing."
 ],
 "C73": [
  "proved",
  "The natural expectation is violated (C73_removed_has_no_id_refuted); proved instead: removal changes no sound's id, and in every history a sound keeps the id of its last add."
 ],
 "C74": [
  "proved",
  "Handles are counted explicitly; Weak handles do not exist in the model (the library creates none)."
 ],
 "C75": [
  "proved",
  "Reader modelled with its while loop; bytes beyond the count are shown untouched through read_spec."
 ],
 "C76": [
  "proved",
  "For T = f32 and f64 with abs the type's own abs; other type arguments are not modelled. Infinite arguments are covered by symmetry and C76_reflexive only as stated."
 ],
 "C77": [
  "proved",
  "File errors and the surrounding main function (fixed file names, header and footer) are not modelled. read_text is an independent reader that rejects empty elements and white space inside numbers."
 ],
 "C82": [
  "proved",
  "Line width counted in characters, newline excluded."
 ],
 "C83": [
  "proved",
  "program arithmetic (f64 coefficients rounded to f32, f32 recurrence); hypotheses on libm: cos_accurate, pow_int_accurate (met by correctly rounded functions); fresh filter, no parameter change in between"
 ],
 "C84": [
  "proved",
  "the natural expectation is refuted for both filters with a concrete setting; between 20 and 600 Hz neither C83 nor C84 applies"
 ],
 "C85": [
  "proved",
  "residue statement for all states with a constant input history; the expectation that DC is removed is refuted by an exact fixed state"
 ],
 "C86": [
  "proved",
  "all coefficients, inputs and positions, from a silent history (as new, clone and the constructors leave it)"
 ],
 "C87": [
  "proved",
  "corner pairs in [20 Hz, 20 kHz], any accurate tan; f64 coefficients, f32 samples, every rounding included"
 ],
 "C88": [
  "proved",
  "program arithmetic (f64), any libm (only the exactly specified square root is used); the coefficients are characterised by C87/C86"
 ],
 "C89": [
  "proved",
  "any sample format and sound type, any iteration order of the map; the nonempty buffers it speaks of are unreachable through the API (C72), where process does nothing"
 ],
 "C90": [
  "proved",
  "derived Clone: vectors copied, Arc handles counted"
 ],
 "C91": [
  "proved",
  "Exact-arithmetic transfer functions of LowPass and HighPass (recurrences and coefficients of the source over the reals), settling from any state; gain bounds; \"3 dB down at the cutoff\" is refuted for every cutoff."
 ],
 "C92": [
  "proved",
  "Exact-arithmetic transfer function of BandPass, its gain in closed form, peak and blocked ends; \"unit gain at the centre\" and \"corners 3 dB down\" are refuted in general."
 ],
 "C93": [
  "proved",
  "Tracking of the exact filters by the f32 filters for all inputs, with an explicit constant. The constants for LowPass and HighPass come from a worst-case analysis: they are small for high cutoffs and exceed 1 (say nothing useful) below roughly 1.5 kHz."
 ],
 "C94": [
  "proved",
  "Frequency responses of C91/C92 carried over to the program's arithmetic up to the constants of C93; same remark on low cutoffs."
 ],
 "C95": [
  "proved",
  "Float counterpart of C17 and of the level in C18, for every libm that is accurate enough."
 ],
 "C96": [
  "proved",
  "Complete level law per channel; the direction users expect is refuted for every pair of positions in the same half."
 ],
 "C97": [
  "proved",
  "accuracy holds; \"setting the same frequency is harmless\" refuted (C97_set_same_frequency_refuted)"
 ],
 "C98": [
  "proved",
  "position, duration and interpolation hold up to the stated drift; \"every track ends\" and \"always the two neighbours\" refuted"
 ],
 "C99": [
  "proved",
  "tracks up to the decay of the past and the rounding; \"never falls while the input is above\" refuted"
 ],
 "C100": [
  "proved",
  "comb filter within a constant error; \"gain below one dies out\" characterised: at most 1/2 dies, above 1/2 never"
 ],
 "C101": [
  "proved",
  "the release-time reading is false and refuted (C101_release_time_refuted); shapes need pow10_accurate libm and |sustain| <= 2000 dB"
 ],
 "C102": [
  "proved",
  "for the generators, modifiers and interactors of the library; closures of the user are covered by C59"
 ],
 "C103": [
  "proved",
  "refutes that notes can be ended and that voices are heard, with what happens instead"
 ],
 "C104": [
  "proved",
  "sine frequencies 0..48000, unlooped tracks; the excluded arguments do panic (C25, C36, C44)"
 ],
 "C105": [
  "proved",
  "l_ok: cutoffs of 600 Hz or more (below, C83/C84 show that the f32 filters need not even be bounded), audible band-pass corners, echo gain below 1, at least one sample of echo, gains of at most 2^30; chain_amp bounds the overall gain by 2^90; libm accuracy assumptions as in C80, C93."
 ],
 "C106": [
  "proved",
  "C106_branches_reach_output_refuted: three branches meeting only at the output, the longest loses its last block and is cut; the positive statements (any graph with delays read off the order; one input per block; parallel one-block branches) hold in full."
 ],
 "C107": [
  "proved",
  "Sums of complex amplitudes for any number of parallel linear parts, from any history or built from scratch (then without panics); chord of sines with explicit error; comb identity. Ranges of the parts as in C105."
 ],
 "C108": [
  "proved",
  "Any smooth curve, any tone, and the library's Sine; the end of the track (last held sample) and looped playback are outside the statement; the error at positions just below a power of two is bounded separately."
 ],
 "C109": [
  "proved",
  "The relied-on statement is refuted (C109_cd_pitch_refuted) and replaced by the exact speed between powers of two, ties included."
 ],
 "C110": [
  "proved",
  "The external wav crate is outside the model (it is assumed to return the header and data it was given)."
 ],
 "C111": [
  "proved",
  "Error bounds are those of C105 (chain_err, chain_amp); LowPass and HighPass from 600 Hz on as in C93; time invariance is bit for bit up to the sign of zeros and for every f32 input."
 ],
 "C112": [
  "proved",
  "C112_square_accuracy: exact equality with the square wave away from the edges"
 ],
 "C113": [
  "proved",
  "sine and sawtooth follow the accumulated phase for every history; C113_triangle_sweep_refuted"
 ],
 "C114": [
  "proved",
  "every graph of branches all but one of which are within one block of the longest is mixed without delays; C114_two_short_branches_refuted shows that the condition cannot be dropped"
 ],
 "C115": [
  "proved",
  "tones through branches of linear modifiers, with all rounding errors"
 ],
 "C116": [
  "proved",
  "order and dataflow with feedback connections, the loop that is an Echo of one sample more; self-loops are refuted"
 ],
 "C117": [
  "proved",
  "C117_loop_to_the_end_refuted: a loop that ends with the track clicks at the seam"
 ],
 "C118": [
  "proved",
  ""
 ],
 "C119": [
  "proved",
  "C119_unit_feedback_refuted: with feedback of sum exactly 1 there is no bound for the output"
 ],
 "C120": [
  "proved",
  "C120_gain_one_piles_up shows that the condition on the loop gain is needed; outputs assumed Ok as in C115 (a run that does not panic)"
 ],
 "C121": [
  "proved",
  "C121_alternating_corners_refuted: the parameters must be kept for a while; the amplitude X must allow for the remembered samples (10 times them for BandPass, pad_for times for the others)"
 ],
 "C122": [
  "proved",
  "Chords, periodic waveforms with explicit harmonics, and a Square in a SimpleSound; from C111."
 ],
 "C123": [
  "proved",
  "a bound for every order and bit-exact special cases; C123_same_bits_refuted shows that the bits may differ in general. About the loop on a buffer of any content (as C89): by C72 the buffer is empty after every history of the API"
 ],
 "C124": [
  "proved",
  "the block, its sidebands, and a SimpleSound of two sines and a chain"
 ],
 "C125": [
  "proved",
  "speeds on the grid of the track's length; for other speeds C98 gives the drift, C125_tenths_refuted an instance of it"
 ],
 "C126": [
  "proved",
  "same rate, clipping and the most negative integer are refuted; the writer of the wav crate is taken to succeed"
 ],
 "C127": [
  "proved",
  "C127_constant_refuted and C127_short_constant_refuted refute that a constant track becomes silent"
 ]
}