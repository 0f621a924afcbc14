{"id": "C01", "title": "8-bit samples survive decode/encode", "statement": "For every byte v, sample_to_u8(sample_from_u8(v)) == v, and the raw-byte entry points agree with the integer ones (sample_from_u8_bytes([v]) == sample_from_u8(v), sample_to_u8_bytes(s) == [sample_to_u8(s)]).", "quantifier": "every u8 value (and, for the encoder, every f32 including infinities and NaN)", "why_tests_cant": "a test samples a handful of bytes; the claim is about IEEE-754 rounding on the whole domain", "anchors": ["src/sample_format/mod.rs:sample_from_u8", "src/sample_format/mod.rs:sample_to_u8", "src/sample_format/mod.rs:sample_from_u8_bytes", "src/sample_format/mod.rs:sample_to_u8_bytes"]}
{"id": "C02", "title": "16-bit samples survive decode/encode", "statement": "For every i16 v, sample_to_i16(sample_from_i16(v)) == v, and the two-byte little-endian forms round-trip too: decoding the bytes produced for the decoded value gives the same sample and the same bytes.", "quantifier": "every i16 value / every pair of bytes", "why_tests_cant": "65536 values through two f32 roundings and a round-half-away; tests sample", "anchors": ["src/sample_format/mod.rs:sample_from_i16", "src/sample_format/mod.rs:sample_to_i16", "src/sample_format/mod.rs:sample_from_i16_bytes", "src/sample_format/mod.rs:sample_to_i16_bytes"]}
{"id": "C03", "title": "24-bit integer samples survive decode/encode", "statement": "For every v in [-2^23, 2^23-1], sample_to_i24(sample_from_i24(v)) == v although both the division and the multiplication round in f32.", "quantifier": "all 2^24 24-bit values", "why_tests_cant": "16.7 million values, each near the limit of f32 precision", "anchors": ["src/sample_format/mod.rs:sample_from_i24", "src/sample_format/mod.rs:sample_to_i24"]}
{"id": "C04", "title": "24-bit byte form round-trips exactly for non-negative samples only", "statement": "Relied on: sample_from_i24_bytes inverts sample_to_i24_bytes. Actual behaviour, for every 24-bit v: encoding sample_from_i24(v) to three bytes and decoding gives back sample_from_i24(v) if and only if v >= 0; for v < 0 the decoder does not sign-extend and yields sample_from_i24(v + 2^24), a positive sample.", "quantifier": "all 2^24 24-bit values / all byte triples", "why_tests_cant": "needs every negative value, and the exact set on which the round trip holds", "anchors": ["src/sample_format/mod.rs:sample_from_i24_bytes", "src/sample_format/mod.rs:sample_to_i24_bytes"]}
{"id": "C05", "title": "Quantisation is nearest-step accurate", "statement": "For every f32 s in [-1,1]: sample_to_i16(s) differs from 32767*s, sample_to_u8(s) from 128*s+128 (capped at 255), and sample_to_i24(s) from (2^23-1)*s by at most half a step plus the f32 rounding of the product/sum.", "quantifier": "every finite f32 in [-1,1]", "why_tests_cant": "2^31 inputs; the worst case sits at rounding ties", "anchors": ["src/sample_format/mod.rs:sample_to_u8", "src/sample_format/mod.rs:sample_to_i16", "src/sample_format/mod.rs:sample_to_i24"]}
{"id": "C06", "title": "Quantisation is monotone and saturates", "statement": "For all f32 s <= t (infinities included) sample_to_u8/i16/i24 are ordered the same way; results of the 8- and 16-bit encoders are always within u8 / i16 (out-of-range input saturates to the end of the range) and NaN encodes to integer 0 (which for 8 bit is full negative amplitude, not silence).", "quantifier": "every pair of f32 values, including NaN and infinities", "why_tests_cant": "pairs of floats; ordering across rounding and saturation boundaries", "anchors": ["src/sample_format/mod.rs:sample_to_u8", "src/sample_format/mod.rs:sample_to_i16", "src/sample_format/mod.rs:sample_to_i24"]}
{"id": "C07", "title": "The 24-bit encoder stays in 24 bits exactly when the sample is in range", "statement": "sample_to_i24(s) lies in [-(2^23-1), 2^23-1] for |s| <= 1 and for no other sample, and its three bytes mean it modulo 2^24; relied-on saturation outside does not happen: there are finite s for which the result does not fit 24 bits and the three-byte form wraps to a sample of the opposite sign.", "quantifier": "every f32", "why_tests_cant": "needs the whole range plus a witness outside it", "anchors": ["src/sample_format/mod.rs:sample_to_i24", "src/sample_format/mod.rs:sample_to_i24_bytes"]}
{"id": "C08", "title": "Mono operators agree with their assigning forms, except subtraction", "statement": "For all operands, x op= y leaves x equal to x op y for +, * (Mono, f32, f64) on Mono. For -, `a - b` computes a + b, so it agrees with `a -= b` only when a+b = a-b in f32; the relied-on law a - b == (a -= b) is violated. Adding the sample made by new() changes no finite sample.", "quantifier": "every pair of Mono samples / gains", "why_tests_cant": "law over all float pairs; the failing operator is not covered by any test", "anchors": ["src/sample_format/mono.rs:Sub", "src/sample_format/mono.rs:SubAssign", "src/sample_format/mono.rs:Add", "src/sample_format/mono.rs:Mul"]}
{"id": "C09", "title": "Stereo operators act channel-wise and agree with their assigning forms, except *= f64", "statement": "For all operands every Stereo operator acts on left and right independently and equals its assigning form, except Mul<f64>/MulAssign<f64>: `*` computes in f64 and rounds once, `*=` first rounds the factor to f32, and there are operands on which the results differ. Adding the sample made by new() changes no finite channel.", "quantifier": "every pair of Stereo samples / gains", "why_tests_cant": "law over all float pairs; difference needs a double-rounding witness", "anchors": ["src/sample_format/stereo.rs:Mul", "src/sample_format/stereo.rs:MulAssign"]}
{"id": "C10", "title": "Mono sample conversion is lossless; Stereo conversion doubles", "statement": "For every f32 x, Mono::from_sample(x).into_sample() == x. For Stereo the relied-on round trip fails: the result is x scaled by two (within f32 rounding) for every x in the normal range that does not overflow.", "quantifier": "every f32", "why_tests_cant": "relative-error claim over the whole normal range", "anchors": ["src/sample_format/mono.rs:SampleFormat for Mono", "src/sample_format/stereo.rs:SampleFormat for Stereo"]}
{"id": "C11", "title": "Integer-vector conversion of sample formats", "statement": "For u8, i16 and i32 vectors: TryFrom fails exactly when the vector is shorter than num_samples(), otherwise depends only on the first num_samples() elements; Into produces exactly num_samples() integers; converting the integers of any valid frame to a sample and back gives the same integers; and the value built is the constructor applied to the decoded integers in order.", "quantifier": "every vector of any length", "why_tests_cant": "all lengths and contents", "anchors": ["src/sample_format/mono.rs:TryFrom", "src/sample_format/mono.rs:Into", "src/sample_format/stereo.rs:TryFrom", "src/sample_format/stereo.rs:Into"]}
{"id": "C12", "title": "Stereo panning clamps its position and is independent of position type", "statement": "For every sample and every pan position g, panning with g outside [-1,1] equals panning with g clamped to the nearer end, and panning with an f32 position equals panning with the same position as f64. Panning to Mono keeps the sample whatever the position.", "quantifier": "every f32 sample, every f32/f64 position incl. infinities", "why_tests_cant": "continuum of positions", "anchors": ["src/sample_format/stereo.rs:Panner<f32> for Stereo", "src/sample_format/stereo.rs:Panner<f64> for Stereo", "src/utils/mod.rs:clerp"]}
{"id": "C13", "title": "Panning direction", "statement": "Relied on: -1 is full left and 1 full right. Actual: the gains in dB at -1 are left -3, right 0; at 1 left -3, right -120; at 0 left -120, right -3. So at full left the right channel is strictly louder than the left for every positive sample and any pow accurate to a relative 2^-40.", "quantifier": "every sample in [2^-100,2^100] and every pow implementation accurate to 2^-40", "why_tests_cant": "statement about all samples and all libm implementations", "anchors": ["src/sample_format/stereo.rs:to_sample_format"]}
{"id": "C14", "title": "clamp / clerp stay in range and hit the end points", "statement": "For all non-NaN f64 x, x1, x2 the clamped value lies between the smaller and larger bound, equals x inside, and swapping the bounds changes nothing; consequently clerp equals clerp at the nearer end for every x outside. clerp at x <= x1 (x1 < x2, finite slope) returns y1 exactly. In exact arithmetic clerp lies between y1 and y2, is monotone and reaches y1 and y2 at the ends.", "quantifier": "every input triple / quintuple", "why_tests_cant": "five-dimensional float domain", "anchors": ["src/utils/mod.rs:clamp", "src/utils/mod.rs:clerp", "src/utils/mod.rs:lerp"]}
{"id": "C15", "title": "Sample/second conversion is inverse", "statement": "Relied on: seconds_to_samples(samples_to_seconds(n)) == n. Actual: samples_to_seconds multiplies by the sample rate instead of dividing, so for every n with 0 < n <= 2^20 the round trip gives 48000^2*n (never n).", "quantifier": "every sample count in the range", "why_tests_cant": "universally false; a test would need to exist", "anchors": ["src/utils/mod.rs:samples_to_seconds", "src/utils/mod.rs:seconds_to_samples"]}
{"id": "C16", "title": "seconds_to_samples rounds to the nearest sample", "statement": "For every duration up to 2^32 seconds, seconds_to_samples(d) is within 1/2 + 2^-5 of 48000*d (d in exact seconds) and is monotone in d.", "quantifier": "every Duration value (secs, nanos) in the range", "why_tests_cant": "2^62 durations with three f64 roundings", "anchors": ["src/utils/mod.rs:seconds_to_samples"]}
{"id": "C17", "title": "Decibel conversions are mutually inverse", "statement": "In exact arithmetic linear_to_db(db_to_linear(x)) = x for all x and db_to_linear(linear_to_db(g)) = g for all g > 0; db_to_linear is positive and strictly increasing with db_to_linear(0) = 1.", "quantifier": "every real number", "why_tests_cant": "continuum", "anchors": ["src/utils/mod.rs:linear_to_db", "src/utils/mod.rs:db_to_linear"]}
{"id": "C18", "title": "normalize reaches the requested peak", "statement": "For every non-empty finite track whose samples are not all equal to the computed mean and stay within amplitude bounds that avoid overflow/underflow, after normalize(db) every |sample| <= the peak, some sample attains the peak, and the peak is within a relative 2^-22 of db_to_linear(db) as f32. A track in which every sample equals the computed mean (e.g. silence) becomes entirely NaN.", "quantifier": "every track length and content; every target", "why_tests_cant": "arbitrary-length tracks, rounding in the max element", "anchors": ["src/utils/mod.rs:normalize"]}
{"id": "C19", "title": "write_wav accepts exactly the documented inputs", "statement": "write_wav returns an error exactly when there are no tracks, two tracks differ in length, the bit depth is not 8/16/24 (or the underlying writer fails); in particular one or more empty tracks are accepted although the documentation lists 'no data' as an error.", "quantifier": "every list of tracks, bit depth and clip flag", "why_tests_cant": "all shapes of input", "anchors": ["src/utils/mod.rs:write_wav"]}
{"id": "C20", "title": "WAV write then read preserves channels and quantised samples", "statement": "For every list of 1..65535 equal-length tracks and each bit depth, reading back what write_wav emitted (the container being lossless) yields the same number of tracks, each of the same length, sample i of track c being the decoded quantisation of sample i of track c; and re-encoding what was read yields identical integers.", "quantifier": "every track count up to 65535, every length, every sample", "why_tests_cant": "interleaving index arithmetic for all shapes", "anchors": ["src/utils/mod.rs:write_wav", "src/utils/mod.rs:read_wav"]}
{"id": "C21", "title": "Reading distributes every integer exactly once, round-robin", "statement": "For every channel count n > 0 and every data vector, read_wav returns n tracks; track c holds exactly the elements at positions congruent to c modulo n, in order; track lengths differ by at most one. With n = 0 and non-empty data of a supported depth, it panics (remainder by zero).", "quantifier": "every channel count and data vector", "why_tests_cant": "all shapes of input", "anchors": ["src/utils/mod.rs:read_wav"]}
{"id": "C22", "title": "Clipping", "statement": "With clip = true every non-NaN sample handed to the encoder lies in [-1,1], samples already inside are unchanged, and hence every emitted integer fits the chosen bit depth; with clip = false this fails for 24 bit.", "quantifier": "every track content", "why_tests_cant": "all floats", "anchors": ["src/utils/mod.rs:write_wav"]}
{"id": "C23", "title": "Channel count in the WAV header wraps", "statement": "The header's channel count equals the number of tracks for up to 65535 tracks and is the track count modulo 65536 beyond that; with 65536 tracks the file announces 0 channels and reading it back panics.", "quantifier": "every number of tracks", "why_tests_cant": "needs tens of thousands of tracks", "anchors": ["src/utils/mod.rs:write_wav", "src/utils/mod.rs:read_wav"]}
{"id": "C24", "title": "Unity-rate playback is the identity", "statement": "For every finite track of at most 2^24 samples with finite differences recorded at 48 kHz, a non-looping resampler at speed 1 outputs the track's samples in order (as real values), then exact zeros forever.", "quantifier": "every track up to 2^24 samples, every number of calls", "why_tests_cant": "unbounded number of calls, all contents", "anchors": ["src/utils/mono_resampler.rs:MonoResampler::process", "src/utils/mono_resampler.rs:MonoResampler::new", "src/generators/mono_wav.rs"]}
{"id": "C25", "title": "Non-looping playback never panics", "statement": "Relied on: process never panics. Exact behaviour for tracks of at most 2^24 samples: process panics if and only if the track has 2^k+1 samples (0 <= k <= 22) and the position is the largest f32 below 2^k, because position + 1 then rounds up to the track length. Hence for every track length not of that form no history of set_playback_speed (any f64, including negative, infinite, NaN) and process calls panics at any source rate, and for every track length of that form (a 2-sample track included) some speed makes the second process call panic. Tracks longer than 2^24 samples can panic as well.", "quantifier": "every track, rate and call history", "why_tests_cant": "histories are unbounded; the failing position is one float in 2^31", "anchors": ["src/utils/mono_resampler.rs:MonoResampler::process", "src/utils/mono_resampler.rs:MonoResampler::set_playback_speed"]}
{"id": "C26", "title": "Resampled output does not exceed the source peak", "statement": "If every source sample has magnitude at most 2^e (for some representable power of two), then for every history with non-negative finite position every output of a non-looping or looping resampler has magnitude at most 2^e.", "quantifier": "every track, every position", "why_tests_cant": "interpolation rounding over all float positions", "anchors": ["src/utils/mono_resampler.rs:MonoResampler::process"]}
{"id": "C27", "title": "Looping playback stays inside the loop", "statement": "If loop_start < loop_end <= track length <= 2^23, the length is not 2^k+1, and every per-call step is between 0 and the loop length minus one, then for every history no panic occurs and the position stays in [0, loop_end) (for length 2^k+1 the only panicking position is the largest f32 below 2^k). At unity rate output n is sample n up to loop_end and then loop_start + (n - loop_end) mod (loop_end - loop_start). With loop_end greater than the track length, or an empty loop, unity playback panics exactly at call length+1.", "quantifier": "every track, loop, history and number of calls", "why_tests_cant": "unbounded playback; rounding of the f32 position", "anchors": ["src/utils/mono_resampler.rs:MonoResampler::new", "src/utils/mono_resampler.rs:MonoResampler::process"]}
{"id": "C28", "title": "loop_end = 0 means no looping", "statement": "Relied on: loop_end = 0 disables looping. Actual: new swaps the bounds whenever loop_end < loop_start, so for every loop_start > 0 passing loop_end = 0 enables a loop over [0, loop_start).", "quantifier": "every loop_start > 0", "why_tests_cant": "universally false", "anchors": ["src/utils/mono_resampler.rs:MonoResampler::new"]}
{"id": "C29", "title": "Playback terminates", "statement": "Non-looping unity-rate playback of at most 2^24 samples reaches permanent silence after exactly len calls; a longer track never ends: the f32 position sticks at 2^24 and the same sample is returned forever.", "quantifier": "every track length, every number of further calls", "why_tests_cant": "the failure needs more than 2^24 calls", "anchors": ["src/utils/mono_resampler.rs:MonoResampler::process"]}
{"id": "C30", "title": "Sawtooth stays in range for every history", "statement": "For every interleaving of process and set_frequency with frequencies in [0, 24000] Hz, every sample is in [-1, 1]. For negative frequencies this fails: the phase decreases without bound.", "quantifier": "every history of frequency changes and samples", "why_tests_cant": "unbounded histories of rounded additions", "anchors": ["src/generators/sawtooth.rs"]}
{"id": "C31", "title": "Sawtooth phase drift is bounded", "statement": "For every frequency in [0,24000] and every n, the phase after n samples differs from the exact accumulated phase n*irate reduced by the number of wraps (an integer multiple of 2) by at most n*2^-53.", "quantifier": "every n and frequency", "why_tests_cant": "accumulated rounding over unbounded time", "anchors": ["src/generators/sawtooth.rs"]}
{"id": "C32", "title": "Triangle stays in range for every history", "statement": "For every interleaving of process and set_frequency with |f| <= 24000, every triangle sample is in [-1,1] and consecutive internal values differ by at most the rate plus 2^-52 of rounding.", "quantifier": "every history", "why_tests_cant": "unbounded histories", "anchors": ["src/generators/triangle.rs"]}
{"id": "C33", "title": "Triangle reports the frequency that was set", "statement": "Relied on: get_frequency returns the frequency set. Actual: it returns f or -f depending on the slope of the current half-period, and a clone made on the falling half starts in the wrong direction; exact characterisation of the sign after any number of samples.", "quantifier": "every history", "why_tests_cant": "depends on the number of processed samples", "anchors": ["src/generators/triangle.rs"]}
{"id": "C34", "title": "Square emits only +1/-1 with exact period and duty cycle", "statement": "Every sample of every history is exactly 1 or -1. If the half period is an integer m (1 <= m <= 2^50), sample k is 1 iff k mod 2m < m, for every k.", "quantifier": "every history; every k and m", "why_tests_cant": "unbounded time", "anchors": ["src/generators/square.rs"]}
{"id": "C35", "title": "Square frequency change takes effect at once", "statement": "Relied on: after set_frequency the output has the new period. Actual: raising the frequency can leave the phase beyond the new period; the output then stays at +1 for as many samples as single-step catch-up needs - for a change to a half period <= 1/2 (f >= 48 kHz), forever.", "quantifier": "every phase and new frequency", "why_tests_cant": "history dependent", "anchors": ["src/generators/square.rs"]}
{"id": "C36", "title": "Sine never indexes outside its table for audible frequencies", "statement": "For every history of process and set_frequency with 0 <= f <= 48000 no panic occurs and every output is in [-1,1] (given a sin that stays in [-1,1]). For f = 96000 the second call panics.", "quantifier": "every history; every sin implementation bounded by 1", "why_tests_cant": "unbounded histories of rounded additions", "anchors": ["src/generators/sine.rs"]}
{"id": "C37", "title": "Sine of a negative frequency is silent", "statement": "For every negative finite frequency of magnitude at most 2^900 and every number of calls, every output is zero (given sin(0)=0 and |sin|<=1), instead of the mirrored sine.", "quantifier": "every negative frequency and number of calls", "why_tests_cant": "history quantification", "anchors": ["src/generators/sine.rs"]}
{"id": "C38", "title": "Noise range", "statement": "For every value the random engine can return (a multiple of 2^-24 in [0,1)), the noise sample is exactly 2u-1, hence in [-1, 1).", "quantifier": "every engine output", "why_tests_cant": "2^24 outputs", "anchors": ["src/generators/noise.rs"]}
{"id": "C39", "title": "Frequency getters invert setters", "statement": "For Sawtooth, Triangle (freshly set), Sine and Square and every normal frequency f in [2^-20, 2^20], get_frequency after set_frequency/new is within relative 2^-50 of f, and set_frequency does not move the phase.", "quantifier": "every frequency in the range", "why_tests_cant": "continuum; a few ulps", "anchors": ["src/generators/sine.rs:FreqMod", "src/generators/sawtooth.rs:FreqMod", "src/generators/square.rs:FreqMod", "src/generators/triangle.rs:FreqMod"]}
{"id": "C40", "title": "Cloned generators restart from phase zero", "statement": "Cloning Sawtooth, Square, Sine or MonoWav at any point of any history gives an object that behaves on every later call exactly like one freshly created with the same increment; for Triangle the same holds only up to the slope sign.", "quantifier": "every history before and after the clone", "why_tests_cant": "unbounded histories", "anchors": ["src/generators/sine.rs:Clone", "src/generators/sawtooth.rs:Clone", "src/generators/square.rs:Clone", "src/generators/triangle.rs:Clone", "src/generators/noise.rs:Clone", "src/generators/mono_wav.rs:Clone"]}
{"id": "C41", "title": "Delay is an exact delay line", "statement": "A Delay of n samples outputs, for every input sequence, zeros for the first n calls and afterwards bit-exactly the input n calls earlier; its length never changes; it never panics (n = 0 is the identity).", "quantifier": "every n and every input sequence", "why_tests_cant": "unbounded sequences", "anchors": ["src/modifiers/delay.rs"]}
{"id": "C42", "title": "Delay length and get_delay", "statement": "Delay::new(d) holds the number of samples nearest to 48000*d, and Delay::new(x.get_delay()) has the same length as x for every length up to 2^32.", "quantifier": "every duration; every length up to 2^32", "why_tests_cant": "durations are 64+32 bit", "anchors": ["src/modifiers/delay.rs"]}
{"id": "C43", "title": "Cloned delay lines behave like fresh ones", "statement": "Relied on: a clone has the same delay. Actual: Delay and Echo clones hold 48000 times as many samples, so a clone delays by 48000*n samples for every n > 0.", "quantifier": "every length", "why_tests_cant": "universally false for n > 0", "anchors": ["src/modifiers/delay.rs", "src/modifiers/echo.rs"]}
{"id": "C44", "title": "Echo recurrence", "statement": "An Echo over n > 0 samples with gain g outputs y[k] = g*y[k-n] + x[k] (y = 0 before start), with the f32 rounding of the product and the sum, for every input sequence; with n = 0 (any duration shorter than one sample) the first process call panics.", "quantifier": "every n, gain and input sequence", "why_tests_cant": "unbounded sequences", "anchors": ["src/modifiers/echo.rs"]}
{"id": "C45", "title": "Echo is bounded for feedback below one", "statement": "If |x[k]| <= X for all k and B is a normal f32 (at least 2^-125) with |g|*B + X <= B (in reals), every output is finite and of magnitude at most B, for every input sequence - no accumulated rounding can exceed it.", "quantifier": "every input sequence, gain, delay", "why_tests_cant": "unbounded accumulation of rounding", "anchors": ["src/modifiers/echo.rs"]}
{"id": "C46", "title": "ADSR envelope phases and gain range", "statement": "For every history of process and release calls, with parameters as produced by new for positive times and a sustain level in [0,1]: the gain stays in [0,1]; phases advance only Attack->Decay->Sustain, and to Release/Stopped only after release; the gain is non-decreasing in Attack and non-increasing in Decay and Release; once stopped, output is zero until release is called again, and zero-gain afterwards.", "quantifier": "every history of calls and samples", "why_tests_cant": "unbounded histories", "anchors": ["src/modifiers/adsr.rs"]}
{"id": "C47", "title": "ADSR attack completes", "statement": "Relied on: an attack of n samples ends after about n calls. Holds up to 2^22 samples (about 87 s): it ends within 2n+2 calls; below 699 s it still ends, within 2^26 calls; from 700 s on the f32 gain stalls at or below 1/2 and the attack never ends.", "quantifier": "every attack time, unbounded calls", "why_tests_cant": "stall needs tens of millions of calls", "anchors": ["src/modifiers/adsr.rs"]}
{"id": "C48", "title": "ADSR release completes", "statement": "Relied on: after release the sound stops. Actual: the step is sized for the sustain level, so when released at gain 2^k with a step of at most 2^(k-25) (for example sustain -60 dB, release 1 s, released at full gain) the gain never changes and the sound never stops; when the gain is at most 2^k and the step above 2^(k-25) it stops within 2^26 calls, and from 2^(k-24) on within 2*gain/step calls.", "quantifier": "every parameter set, unbounded calls", "why_tests_cant": "non-termination", "anchors": ["src/modifiers/adsr.rs"]}
{"id": "C49", "title": "ADSR with zero decay", "statement": "With decay time zero and a sustain level of 0 dB the decay step is 0/0 = NaN and from the first decay sample on every output is NaN, for every input, until release is called (and after).", "quantifier": "every input sequence", "why_tests_cant": "unbounded; needs the NaN propagation argument", "anchors": ["src/modifiers/adsr.rs"]}
{"id": "C50", "title": "Filter parameters are always clamped", "statement": "After any history of LowPass/HighPass construction and setter calls with arbitrary f64 arguments (NaN and infinities included) the reported resonance is in [0,1] and the reported cutoff is at most 24000 Hz; setters leave the sample history untouched.", "quantifier": "every history of setter calls with any f64", "why_tests_cant": "NaN/infinity and histories", "anchors": ["src/modifiers/lowpass.rs", "src/modifiers/highpass.rs"]}
{"id": "C51", "title": "LowPass has unit gain at DC and is stable", "statement": "In exact arithmetic, for every cutoff in (0, 24000] and resonance in [0,1]: a constant input c is a fixed point c of the recurrence, and every bounded input sequence yields a bounded output sequence (explicit bound).", "quantifier": "every cutoff, resonance, input sequence", "why_tests_cant": "stability is a statement about infinite sequences", "anchors": ["src/modifiers/lowpass.rs"]}
{"id": "C52", "title": "HighPass blocks DC and is stable", "statement": "For the f32 coefficients computed by reset the numerator coefficients cancel bit for bit (a3 = -a0, a1 = -a2) after any history of setter calls; in exact arithmetic a constant input therefore contributes exactly zero and the filter is stable for every cutoff in (0,24000] and resonance in [0,1].", "quantifier": "every cutoff, resonance, input", "why_tests_cant": "infinite sequences", "anchors": ["src/modifiers/highpass.rs"]}
{"id": "C53", "title": "BandPass corner frequencies", "statement": "In exact arithmetic, for f > 0, q > 0: the reported corners (lo,hi) satisfy lo*hi = f^2, hi-lo = f/q, 0 < lo <= f <= hi; from_corners((a,b)) reports (min a b, max a b) for positive a <> b, and set_corner_frequencies agrees with from_corners.", "quantifier": "every centre frequency and quality, every corner pair", "why_tests_cant": "continuum", "anchors": ["src/modifiers/bandpass.rs"]}
{"id": "C54", "title": "BandPass blocks DC and Nyquist and is stable", "statement": "In exact arithmetic constant and alternating inputs have a zero feed-forward term; for corners strictly between 0 and 24000 Hz every bounded input gives a bounded output.", "quantifier": "every input sequence", "why_tests_cant": "infinite sequences", "anchors": ["src/modifiers/bandpass.rs"]}
{"id": "C55", "title": "Generic filter computes its difference equation", "statement": "For zeros/poles whose last entry has the largest index, for every input sequence: y[n] = sum b_i x[n-i] + sum a_j y[n-1-j] (f32 evaluation order as written), never panicking; if some index exceeds the last entry's index, the first process call panics.", "quantifier": "every coefficient list and input sequence", "why_tests_cant": "unbounded sequences", "anchors": ["src/modifiers/generic.rs"]}
{"id": "C56", "title": "Envelope follower is non-negative and bounded", "statement": "For lower and upper frequencies in [0, 10000] Hz and every input sequence of finite samples bounded in magnitude by B = 2^k, 0 <= k <= 100, every f32 output is finite and in [0, 2B]; in exact arithmetic outputs never exceed the largest input magnitude so far.", "quantifier": "every input sequence", "why_tests_cant": "unbounded sequences", "anchors": ["src/modifiers/envelope.rs"]}
{"id": "C57", "title": "Stateless modifiers", "statement": "Gain multiplies every sample by its gain, Passthrough returns every sample unchanged (bit-exact, NaN included), regardless of history; Zero always returns 0.", "quantifier": "every sample and history", "why_tests_cant": "histories", "anchors": ["src/modifiers/gain.rs", "src/modifiers/passthrough.rs", "src/generators/zero.rs"]}
{"id": "C58", "title": "Cloned filters start from silence", "statement": "A clone of LowPass, HighPass, BandPass, Envelope, Generic or ADSR taken after any history behaves on all later inputs like a new filter with the same coefficients.", "quantifier": "every history before the clone, every later input", "why_tests_cant": "unbounded histories", "anchors": ["src/modifiers/adsr.rs:Clone", "src/modifiers/bandpass.rs:Clone", "src/modifiers/delay.rs:Clone", "src/modifiers/echo.rs:Clone", "src/modifiers/envelope.rs:Clone", "src/modifiers/gain.rs:Clone", "src/modifiers/generic.rs:Clone", "src/modifiers/highpass.rs:Clone", "src/modifiers/lowpass.rs:Clone"]}
{"id": "C59", "title": "Blocks sum their primed inputs and reset", "statement": "For any generator, modifier and interactor: process feeds the modifier the f32 sum (in order, from 0) of everything primed since the last process, exactly once; afterwards the accumulated input is zero. It panics exactly when one of the three parts is shared.", "quantifier": "every generator/modifier/interactor behaviour, every history", "why_tests_cant": "polymorphic in user code", "anchors": ["src/sounds/standard_block.rs"]}
{"id": "C60", "title": "SimpleSound is a series chain", "statement": "For any block behaviours, SimpleSound::process(x) equals output_gain times the left-to-right composition of the generator block on x*input_gain and each modifier block, every unshared block being processed exactly once.", "quantifier": "any number of modifiers, any block behaviour, any history", "why_tests_cant": "polymorphic, unbounded chain", "anchors": ["src/sounds/simple_sound.rs"]}
{"id": "C61", "title": "Paused sounds are frozen", "statement": "For SimpleSound and ComplexSound and any history: while paused every process call returns 0 and changes nothing, so after un-pausing the sound continues exactly as if the paused calls had not happened.", "quantifier": "every history", "why_tests_cant": "histories", "anchors": ["src/sounds/simple_sound.rs", "src/sounds/complex_sound.rs"]}
{"id": "C62", "title": "Muting does not disturb a sound", "statement": "For any history, inserting or removing toggle_mute calls changes no internal state other than the mute flag: outputs while unmuted are identical, outputs while muted are 0.", "quantifier": "every history", "why_tests_cant": "histories", "anchors": ["src/sounds/simple_sound.rs", "src/sounds/complex_sound.rs"]}
{"id": "C63", "title": "Sound registration and gain accessors", "statement": "get_id returns the id of the latest register not followed by unregister; toggles are involutions; set gain then get gain returns the f32-rounded value.", "quantifier": "every history", "why_tests_cant": "histories", "anchors": ["src/sounds/simple_sound.rs", "src/sounds/complex_sound.rs"]}
{"id": "C64", "title": "Cloning a sound", "statement": "Relied on: a clone plays like the original. Actual: blocks are shared, so while a clone of a SimpleSound is alive both play the generator as silence and skip every modifier, and while a clone of a ComplexSound is alive process panics unless the sound is paused; dropping the clone restores everything.", "quantifier": "every sound and history", "why_tests_cant": "aliasing", "anchors": ["src/sounds/simple_sound.rs", "src/sounds/complex_sound.rs"]}
{"id": "C65", "title": "ComplexSound processing order is well formed", "statement": "After any sequence of add_block/add_connection/remove_connection ending in a connection change (cycles and self-loops included), computing the order terminates and yields a duplicate-free list that starts with the input gain, ends with the output gain and contains only existing blocks reachable from a block without inputs.", "quantifier": "every graph and edit history", "why_tests_cant": "all graphs including cyclic ones; termination", "anchors": ["src/sounds/complex_sound.rs:process_order"]}
{"id": "C66", "title": "ComplexSound processes every connected block", "statement": "Relied on: every block fed by a block without inputs (such as the input gain) is processed. Actual: holds when every block has at most one incoming connection; fails in general - after a diamond (two blocks feeding a third) blocks further downstream are silently dropped from the order.", "quantifier": "every graph", "why_tests_cant": "all graphs", "anchors": ["src/sounds/complex_sound.rs:process_order"]}
{"id": "C67", "title": "ComplexSound processes blocks after their inputs", "statement": "Relied on: a block runs after the blocks feeding it. Holds, for connections not entering the input gain nor leaving the output gain, in graphs where every block has at most one incoming connection and for every block fed by a block without inputs; fails for acyclic graphs with paths of different length between two blocks (an input arrives one call late).", "quantifier": "every graph", "why_tests_cant": "all graphs", "anchors": ["src/sounds/complex_sound.rs:process_order"]}
{"id": "C68", "title": "A feedback connection to the input gain", "statement": "If every block has an incoming connection (e.g. a feedback edge into the input gain), the processing order is just [input gain, output gain] whatever the rest of the graph, so every other block is never processed.", "quantifier": "every graph without a source", "why_tests_cant": "all graphs", "anchors": ["src/sounds/complex_sound.rs:process_order"]}
{"id": "C69", "title": "ComplexSound with no connections swallows its input", "statement": "Before any connection exists, n process calls return 0 and accumulate the n inputs in the input gain; the first process after a connection is made sees their f32 sum.", "quantifier": "every input sequence", "why_tests_cant": "histories", "anchors": ["src/sounds/complex_sound.rs:process"]}
{"id": "C70", "title": "A linear ComplexSound equals a SimpleSound", "statement": "For any list of blocks b1..bn connected input->b1->...->bn->output, ComplexSound::process produces for every input history the value obtained by series composition (as SimpleSound does), each block primed once and processed once per call.", "quantifier": "every chain length, block behaviour and input history", "why_tests_cant": "unbounded chain, histories", "anchors": ["src/sounds/complex_sound.rs:process"]}
{"id": "C71", "title": "Channel ids are unique", "statement": "For every history of add_sound/remove_sound (below 2^64 additions) no id is issued twice, the sound's get_id is the issued id, and exactly the ids issued and not removed are registered.", "quantifier": "every history", "why_tests_cant": "histories", "anchors": ["src/channels/standard_channel.rs"]}
{"id": "C72", "title": "Channel output length", "statement": "Relied on: process fills process_time worth of samples. Actual: for every history of set_process_time, set_gain, add_sound, remove_sound and process, get_output is empty - process never calls any sound.", "quantifier": "every history", "why_tests_cant": "histories; the output vector only ever has capacity", "anchors": ["src/channels/standard_channel.rs:process"]}
{"id": "C73", "title": "Removing a sound unregisters it", "statement": "Relied on: after remove_sound the sound reports no id. Actual: the sound's id is left unchanged for every sound and history.", "quantifier": "every history", "why_tests_cant": "histories", "anchors": ["src/channels/standard_channel.rs:remove_sound"]}
{"id": "C74", "title": "Adding a shared sound", "statement": "add_sound panics exactly when the given sound handle is shared; in particular adding the same handle twice without removing it in between always panics.", "quantifier": "every history", "why_tests_cant": "aliasing", "anchors": ["src/channels/standard_channel.rs:add_sound"]}
{"id": "C75", "title": "VecReader delivers its bytes once, in order", "statement": "For every payload and every sequence of buffer sizes, the concatenation of the bytes delivered is a prefix of the payload, each read returns min(buffer length, remaining), bytes beyond the count are untouched, and it never panics.", "quantifier": "every payload and read schedule", "why_tests_cant": "all read schedules", "anchors": ["src/debug.rs:VecReader"]}
{"id": "C76", "title": "float_equal is a tolerance test", "statement": "For all f32 inputs float_equal(a,b,e,abs) is true iff |a-b| < e in f32; false whenever NaN is involved; symmetric in a and b.", "quantifier": "every triple of floats", "why_tests_cant": "all floats", "anchors": ["src/debug.rs:float_equal"]}
{"id": "C77", "title": "bin2str preserves the bytes", "statement": "For every byte string, the table text produced by the bin2str utility, read as comma-separated decimal numbers with whitespace ignored, is exactly that byte string.", "quantifier": "every byte string", "why_tests_cant": "unbounded input, line wrapping", "anchors": ["utility/bin2str/src/main.rs"]}
{"id": "C78", "title": "Loop seam interpolation stays in the loop", "statement": "Relied on: between the last sample of the loop and its wrap the output is interpolated towards the sample at loop_start. Actual: if the loop ends at the end of the track and loop_start >= 1 the right-hand sample is the one BEFORE the loop (loop_start - 1), for every position in the last sample interval; if the loop ends inside the track it is the sample AFTER the loop (loop_end). So samples outside the loop leak into a loop of zeros.", "quantifier": "every looping resampler and every position in the seam", "why_tests_cant": "needs every fractional position and every loop", "anchors": ["src/utils/mono_resampler.rs:MonoResampler::process"]}
{"id": "C79", "title": "A written WAV file plays back its first track", "statement": "For every non-empty list of tracks accepted by write_wav (at most 65535 tracks of at most 2^24 samples), MonoWav::from_source on the written file followed by any number of process calls yields the first track's samples, encoded and decoded at the chosen bit depth, in order, then zeros. A file declaring zero channels makes from_source panic.", "quantifier": "every track list, bit depth, clip flag and number of calls", "why_tests_cant": "unbounded tracks and calls through encode, decode and f32 position arithmetic", "anchors": ["src/generators/mono_wav.rs:MonoWav::from_source", "src/utils/mod.rs:write_wav", "src/utils/mod.rs:read_wav", "src/utils/mono_resampler.rs:MonoResampler::process"]}
{"id": "C80", "title": "The sine generator is a sine", "statement": "For every frequency in [0,48000] and every n, sample n of a fresh Sine is within 2^-9 + n*2^-48 of sin(2*pi*f*n/48000); the error of a single sample is at most 2^-21 whenever the table phase is non-negative, but a phase that wrapped into [-1,0) reads table entry 0 twice and yields exactly 0 (assuming a sin accurate to 2^-50).", "quantifier": "every frequency and sample number", "why_tests_cant": "unbounded time; all fractional phases; the early wrap at 4799 hits only some frequencies", "anchors": ["src/generators/sine.rs:Sine::process", "src/generators/sine.rs:WAVETABLE"]}
{"id": "C81", "title": "ADSR decay completes", "statement": "Relied on: after the attack the gain decays to the sustain level. Holds when the decay step is above 2^-25 per sample (within 2^26 calls; from 2^-24 on within 2/step calls). Fails for smaller steps, for example sustain -1/8 dB with a 12 s decay: the gain stays exactly 1 forever.", "quantifier": "every parameter set, history and number of calls", "why_tests_cant": "unbounded calls; f32 absorption of small steps", "anchors": ["src/modifiers/adsr.rs:ADSR::process"]}
{"id": "C82", "title": "bin2str line width", "statement": "For every byte string no line of the table text produced by the bin2str utility is longer than 80 characters.", "quantifier": "every byte string", "why_tests_cant": "Whether a line can overflow depends on the widths of all numbers on it and on every earlier wrap; tests see a few files.", "anchors": ["utility/bin2str/src/main.rs:byte2char"]}
{"id": "C83", "title": "LowPass and HighPass stay bounded in f32 from 600 Hz on", "statement": "For every cutoff whose clamped value is at least 600 Hz, every resonance argument (clamped, NaN included) and every finite input sequence bounded by X (2^-100 <= X <= 2^90), every output of a fresh LowPass in the program's f32 arithmetic is finite and at most (92000/fc + 6)*X, and of a fresh HighPass at most (368000/fc + 26)*X (cos accurate to 2^-50, powf with exponents 2 and 3 to a relative 2^-50).", "quantifier": "every cutoff from 600 Hz, resonance, amplitude, input sequence and length", "why_tests_cant": "unbounded feedback with rounding in every coefficient and every operation; tests see a few seconds of a few signals", "anchors": ["src/modifiers/lowpass.rs:LowPass::process", "src/modifiers/highpass.rs:HighPass::process"]}
{"id": "C84", "title": "Low cutoffs are numerically unstable", "statement": "Relied on: the filters are stable for every admissible cutoff. Actual: at 20 Hz with resonance 1, a LowPass (and likewise a HighPass) fed the constant 1.0 reaches NaN after finitely many samples and every later output is NaN, whatever is fed: rounding the coefficients to f32 moves a pole outside the unit circle.", "quantifier": "every later input sequence, any accurate libm", "why_tests_cant": "takes about 32,000 samples to show and then depends on every rounding", "anchors": ["src/modifiers/lowpass.rs:LowPass::reset", "src/modifiers/highpass.rs:HighPass::reset"]}
{"id": "C85", "title": "What a HighPass leaves of a constant", "statement": "For every HighPass with cutoff at least 2^-10 Hz and every constant c with 2^-100 <= |c| <= 2^100: once the input history is c, each output is the feedback of the last three outputs plus one and the same f32 number d with |d| <= 3*2^-24*|c|. Relied on but false: that the constant is removed; at 130 Hz, resonance 0, constant 1.0 the output settles exactly at a constant above 0.01 and stays there forever.", "quantifier": "every cutoff, resonance, constant and output history; every number of further samples", "why_tests_cant": "the fixed point appears after 15,275 samples; the residue is a statement about all floats", "anchors": ["src/modifiers/highpass.rs:HighPass::process", "src/modifiers/highpass.rs:HighPass::reset"]}
{"id": "C86", "title": "The filters compute their difference equations", "statement": "For every fresh (or cloned) LowPass, HighPass or BandPass, every input sequence and every position n, output n is, operation for operation in the program's arithmetic, the linear combination of inputs n..n-3 and outputs n-1..n-3 (n-2 for BandPass) with the stored coefficients, samples before the start being 0. In particular a constant or a signal of period two enters a BandPass only through its first two samples.", "quantifier": "every coefficient set, input sequence and position", "why_tests_cant": "an error in shifting the history shows only in some signals and positions", "anchors": ["src/modifiers/lowpass.rs:LowPass::process", "src/modifiers/highpass.rs:HighPass::process", "src/modifiers/bandpass.rs:BandPass::process"]}
{"id": "C87", "title": "BandPass stays bounded in the program's arithmetic", "statement": "For every central frequency and quality whose corners (get_corner_frequencies) lie between 20 Hz and 20 kHz, and every finite input sequence bounded by X (2^-100 <= X <= 2^90), every output of a fresh BandPass is finite and at most (34000/lower corner + 3)*X (tan accurate to a relative 2^-40). Likewise for a filter built with from_corners from any two corners between 20.001 and 19999.999 Hz at least 2^-20 apart, with 34001 over the smaller corner asked for.", "quantifier": "every corner pair in the audible range, amplitude, input sequence and length", "why_tests_cant": "unbounded feedback with rounding of coefficients and outputs", "anchors": ["src/modifiers/bandpass.rs:BandPass::process", "src/modifiers/bandpass.rs:BandPass::reset"]}
{"id": "C88", "title": "BandPass parameters and corners in the program's arithmetic", "statement": "Setting the central frequency or quality of a BandPass reports exactly the value set, keeps the other parameter and the sample history, and yields the coefficients of a new filter. For every frequency in [2^-40,2^40] and quality in [2^-60,2^60] the reported corners are ordered and within 2^-27 of the upper corner of the exact ones. For any two corners in [2^-10,2^20] at least 2^-20 apart, given in either order to from_corners or set_corner_frequencies, the reported corners are these two in ascending order up to 2^-27 of the larger.", "quantifier": "every frequency, quality, pair of corners and prior filter state", "why_tests_cant": "the round trip passes through a square root, a quotient and a cancellation for each of 2^128 pairs", "anchors": ["src/modifiers/bandpass.rs:BandPass::from_corners", "src/modifiers/bandpass.rs:BandPass::set_corner_frequencies", "src/modifiers/bandpass.rs:BandPass::get_corner_frequencies"]}
{"id": "C89", "title": "What the channel's mixing loop computes", "statement": "For every buffer content, every set of distinct solely-owned registered sounds and every gain, process replaces sample i by (old sample i + the i-th sample of each sound) * gain, advances each sound by one sample per buffer entry and changes nothing else (so old contents leak into the mix unless the buffer was cleared). If the buffer is nonempty and any registered sound is also held by someone else it panics. The gain is the last one set, rounded to f32, after every history.", "quantifier": "every sample format, sound type, buffer, set of sounds, gain and history", "why_tests_cant": "quantifies over all sounds and buffers, and the channel's own API never produces a nonempty buffer (see 'Channel output length'), so no test through the API reaches the loop", "anchors": ["src/channels/standard_channel.rs:StandardChannel::process", "src/channels/standard_channel.rs:StandardChannel::set_gain"]}
{"id": "C90", "title": "Cloning a channel", "statement": "A clone of a StandardChannel has the same buffer, gain, ids and counter and shares (does not copy) the registered sounds: each gains one handle per entry and keeps its state. Hence with a nonempty buffer neither the original nor the clone can process while both exist, and both issue the same id next: ids are unique per channel, not across clones.", "quantifier": "every channel, heap and set of sounds", "why_tests_cant": "reference counts of all sounds over all channel states", "anchors": ["src/channels/standard_channel.rs:StandardChannel"]}
{"id": "C91", "title": "LowPass and HighPass have the frequency response of their prototype, in exact arithmetic", "statement": "Computed without rounding, a LowPass or HighPass fed with a sine of any frequency, amplitude and phase settles (geometrically, from any earlier state) to the same sine multiplied by 1/(s^3+ks^2+ks+1) or s^3/(s^3+ks^2+ks+1) at s = (1-e^(-jw))/(2 pi fc/48000). Hence unit gain at DC for the low pass and none for the high pass, the documented 18 dB/octave beyond twice the cutoff, never more than Butterworth's gain without resonance, and a resonance peak that grows without bound as the cutoff falls. The low pass is always more than 3 dB down at its cutoff, so it is not an exact Butterworth filter.", "quantifier": "for every cutoff in (0, 24000], resonance in [0, 1], frequency, amplitude, phase and initial state", "why_tests_cant": "a test measures a few frequencies after a finite settling time; the claim is about every frequency and the limit", "anchors": ["src/modifiers/lowpass.rs:LowPass::reset", "src/modifiers/lowpass.rs:LowPass::process", "src/modifiers/highpass.rs:HighPass::reset", "src/modifiers/highpass.rs:HighPass::process"]}
{"id": "C92", "title": "BandPass has the frequency response of a first-order pair; its gain at the centre is not one and its corners are not 3 dB down", "statement": "Computed without rounding, a BandPass with corners lo < hi below 24 kHz settles on every sine to the sine multiplied by its transfer function, whose power gain at v Hz is h^2 T^2/((T^2+h^2)(T^2+l^2)) with h, l, T the tangents of pi hi/48000, pi lo/48000, pi v/48000. The gain is largest exactly where T^2 = h l, where it is (h/(h+l))^2 < 1: a narrow band loses half its amplitude. The two corners have equal gain, always more than half the peak power. DC and the Nyquist frequency are blocked.", "quantifier": "for every frequency, quality, input sine and initial state with the upper corner below 24 kHz", "why_tests_cant": "a test measures a few frequencies of a few filters; the claim is about all of them and the limit", "anchors": ["src/modifiers/bandpass.rs:BandPass::reset", "src/modifiers/bandpass.rs:BandPass::process", "src/modifiers/bandpass.rs:BandPass::get_corner_frequencies"]}
{"id": "C93", "title": "The filters in the program's arithmetic follow the exact filters", "statement": "A fresh BandPass with audible corners, or a fresh LowPass or HighPass with (clamped) cutoff at least 600 Hz, fed with any finite samples bounded by X (2^-100 <= X <= 2^90), produces at every position a finite sample whose distance from the output of the same filter computed without rounding is at most a constant of the filter times X, independent of the length of the input. The constant is explicit (bp_drift, lp_drift, hp_drift): below 1/1000 for a band pass from 1 to 4 kHz, 1/2000 for a low pass and 1/250 for a high pass at 12 kHz.", "quantifier": "for every parameter in range, every input sequence, its length and amplitude", "why_tests_cant": "feedback accumulates rounding errors over unboundedly many samples; a test compares a few seconds of a few signals", "anchors": ["src/modifiers/lowpass.rs:LowPass::process", "src/modifiers/highpass.rs:HighPass::process", "src/modifiers/bandpass.rs:BandPass::process"]}
{"id": "C94", "title": "Tones through the filters as the program runs them", "statement": "Feeding a fresh LowPass, HighPass (cutoff at least 600 Hz) or BandPass (audible corners), in the program's arithmetic, with the samples of a sine of any frequency, amplitude and phase (each sample within eps of the sine), yields finite outputs that tend geometrically to the sine multiplied by the filter's transfer function, up to an explicit constant times the amplitude (as in the property before) plus another times eps.", "quantifier": "for every parameter in range, every frequency, amplitude, phase, error of the input samples and position", "why_tests_cant": "the claim is about the limit and about every frequency at once", "anchors": ["src/modifiers/lowpass.rs:LowPass::process", "src/modifiers/highpass.rs:HighPass::process", "src/modifiers/bandpass.rs:BandPass::process"]}
{"id": "C95", "title": "Decibel conversions in f64", "statement": "With a powf accurate to a relative 2^-40 and a log10 accurate to a relative 2^-40 plus 2^-50: db_to_linear of every finite x in [-2000, 2000] is within a relative 2^-39 of 10^(x/20); linear_to_db of every positive finite g is within a relative 2^-39 plus 2^-44 of 20 log10 g; converting back and forth returns x within a relative 2^-39 plus 2^-33, and g in [2^-190, 2^190] within a relative 2^-30. normalize brings the peak of every track that is not constant within a relative 2^-21 of 10^(db/20), for db in [-300, 300].", "quantifier": "for every f64 in range, every accurate libm and every track of at most 2^24 samples", "why_tests_cant": "2^64 arguments, and a claim about every conforming libm rather than the one on the test machine", "anchors": ["src/utils/mod.rs:linear_to_db", "src/utils/mod.rs:db_to_linear", "src/utils/mod.rs:normalize"]}
{"id": "C96", "title": "The pan law, position by position", "statement": "For every finite sample up to 2^100 and every position in [-1, 1], panning to Stereo attenuates each channel, up to a relative 2^-22 (plus the smallest subnormal), by a level linear in the position: the left channel from -3 dB at -1 to -120 dB at 0, then from 0 dB just right of the centre to -3 dB at 1; the right channel from 0 dB at -1 towards -3 dB at the centre, then to -120 dB at 1. Relied on but false: that moving right makes the right channel louder. Within either half, moving right makes both channels quieter.", "quantifier": "for every sample, position and accurate powf", "why_tests_cant": "a test checks a few positions; the discontinuity and the direction are statements about all of them", "anchors": ["src/sample_format/stereo.rs:to_sample_format"]}
{"id": "C97", "title": "Triangle and sawtooth are accurate at every position", "statement": "After n samples a Triangle of any frequency up to 24 kHz (either sign) returns the exact triangle wave (2/pi asin sin(2 pi f n/48000)) within 2^-25 + n 2^-50, and a Sawtooth of frequency in [0, 24000] the exact sawtooth within 2^-25 + n 2^-51 whenever the exact value is further than n 2^-51 from the jump. Relied on but false: that setting a Triangle's frequency to the one it already has changes nothing; every triangle reaches a state where that turns the slope around.", "quantifier": "for every frequency in range and every position", "why_tests_cant": "phase errors accumulate over unboundedly many samples and the slope flag matters only after the first turning point", "anchors": ["src/generators/triangle.rs:Triangle::process", "src/generators/triangle.rs:set_frequency", "src/generators/sawtooth.rs:Sawtooth::process"]}
{"id": "C98", "title": "Pitch and duration of a track played at any speed", "statement": "A track of at most 2^k <= 2^24 samples, of any rate in [1, 2^20] Hz, played without a loop at any speed in [2^-20, 2^20]: call number i returns the track linearly interpolated (within 2^-22 of full scale) at a position within i (c 2^-22 + 2^(k-25)) of i c, where c = rate speed/48000, and silence once that position is past the end by more than this drift. Relied on but false: that every track ends (one longer than 2^m + 1 samples whose step c lies between 2^(m-25) and 2^(m-24) repeats sample 2^m for ever: a CD track at half speed, after 190 seconds of music), and that the output is always made of the two neighbouring samples (at 2^k - 2^(k-24) the right neighbour is skipped).", "quantifier": "for every track, rate, speed and call number", "why_tests_cant": "the position drifts over unboundedly many calls; the stuck playback shows only after minutes, the misread at single positions", "anchors": ["src/utils/mono_resampler.rs:MonoResampler::process", "src/utils/mono_resampler.rs:MonoResampler::new", "src/utils/mono_resampler.rs:set_playback_speed"]}
{"id": "C99", "title": "The envelope follows the signal", "statement": "After any bounded history, once the magnitude of the input stays between lo and hi, so does the envelope, up to what remains of the past and the rounding: output i is at least lo - a^(i+1) lo - Y 2^-19/tu and at most hi + b^(i+1) 2 Y + Y 2^-19/td, where tu and td are within 2^-19 of tan(pi f/48000) for the upper and the lower frequency (1 to 10000 Hz), a = (1-tu)/(1+tu), b = (1-td)/(1+td) and Y bounds the signal. In exact arithmetic the shortfall and the excess shrink by these factors at every sample, and a constant is approached as |x| + a^(i+1) (y - |x|). Relied on but false: that the envelope never falls while the input is above it (after a zero input it falls whenever the input is less than twice the envelope).", "quantifier": "for every pair of frequencies in range, every history and every bounded signal", "why_tests_cant": "tracking is a statement about all later samples of all signals, with rounding errors fed back at every one", "anchors": ["src/modifiers/envelope.rs:Envelope::new", "src/modifiers/envelope.rs:Envelope::process"]}
{"id": "C100", "title": "Echo is a feedback comb filter, and when it dies out", "statement": "With a gain of magnitude below 1 and inputs for which the outputs stay within B (C45), output k of an Echo is the sum over j of g^j x(k - j n), n the delay in samples, within 2^-22 B/(1-|g|) at every k. With a gain of magnitude at most 1/2, whatever finite samples are in flight, after 277 repetitions of silence the output is zero for good. Relied on but false: that an echo with a gain below one dies out; with a gain of magnitude above 1/2 (and at most 1) no nonzero sample in flight ever becomes zero.", "quantifier": "for every delay, gain, history and number of samples", "why_tests_cant": "the tail is unbounded in time and the surviving subnormals are inaudible in any finite listening test but slow every later sample", "anchors": ["src/modifiers/echo.rs:Echo::process"]}
{"id": "C101", "title": "The ADSR follows the envelope that was asked for", "statement": "With positive times, the gain after n calls of the attack is n/A (A: attack time in samples) within n (2^-25 + 2^-22/A), and the attack ends when that reaches 1 up to the same error; the decay falls from 1 to the sustain level L over the decay time D in samples within n (2^-25 + 2^-22/D) and then holds L to single precision; a release at any moment falls from the gain it finds at the rate of L per release time, within an error that shrinks with the binade of the gain. Relied on but false: that the release takes the release time; released at full gain with L <= 1/2 the gain is still at least 3/8 when the release time is over.", "quantifier": "for every attack, decay and release time, sustain level, history of calls and number of samples, and every libm whose powers of ten are accurate", "why_tests_cant": "a linear ramp accumulated in single precision drifts with the number of samples; a test checks a few durations", "anchors": ["src/modifiers/adsr.rs:ADSR::new", "src/modifiers/adsr.rs:ADSR::process", "src/modifiers/adsr.rs:ADSR::release"]}
{"id": "C102", "title": "A block made of library parts plays its generator, filters its input, or multiplies the two", "statement": "Whatever it is primed with, a StandardBlock from a generator outputs exactly the samples of that generator; one from a modifier outputs the modifier applied to the sum of the inputs of each call; one with the default interactor outputs the product of the two. Both parts advance once per call independently of each other, so that swapping one through get_g_mut or get_m_mut after any history leaves the other where it was. A SimpleSound of one block is that block with the two gains.", "quantifier": "for every library generator and modifier and every sequence of calls with any number of inputs each", "why_tests_cant": "the statement relates unboundedly long runs of a composite to runs of its parts, for all parts", "anchors": ["src/sounds/standard_block.rs:StandardBlock::from_generator", "src/sounds/standard_block.rs:StandardBlock::from_modifier", "src/sounds/standard_block.rs:default_interactor", "src/sounds/standard_block.rs:get_m_mut"]}
{"id": "C103", "title": "Notes end, and voices are heard (refuted)", "statement": "Relied on but false: that a note shaped by an ADSR inside a sound can be ended (no history of calls on a SimpleSound or ComplexSound ever releases an ADSR held by one of its blocks, and unless it was asked to sustain below -600 dB its gain stays above a positive constant for ever), and that a generator and an ADSR combined by the default interactor in one block are heard (with the zero input a channel gives to its sounds, such a sound is silent for ever; the block needs the constant input 1 to be generator times envelope).", "quantifier": "for every ADSR, generator, history of calls and heap of blocks", "why_tests_cant": "the impossibility is over all histories of calls on sounds; silence has to be shown for all samples to come", "anchors": ["src/modifiers/adsr.rs:ADSR::release", "src/sounds/standard_block.rs:StandardBlock::process", "src/channels/standard_channel.rs:StandardChannel::process"]}
{"id": "C104", "title": "A sound made of library parts never panics", "statement": "In a heap whose blocks are StandardBlocks made of library parts, constructed with arguments for which the parts themselves are safe (sine frequencies between 0 and 48000 Hz, unlooped tracks not longer than 2^24 samples whose length is not 2^k + 1, echoes of at least one sample, generic filters whose longest delay comes last), no history of calls on a SimpleSound panics, shared blocks or not, nor any history on a ComplexSound in which blocks are moved in and only existing blocks are connected.", "quantifier": "for every heap of such blocks, every sound and every history of calls", "why_tests_cant": "panic freedom over all histories of all compositions of parts", "anchors": ["src/sounds/simple_sound.rs:SimpleSound::process", "src/sounds/complex_sound.rs:ComplexSound::process", "src/sounds/standard_block.rs:StandardBlock::process"]}
{"id": "C105", "title": "A tone through a chain of linear modifiers in a sound", "statement": "A SimpleSound is its blocks one after the other, each given the whole output of the one before. A Sine of f Hz followed by any chain of gains, delays, echoes (gain below 1), Generic filters (feedback coefficients of sum below 1), low and high passes (cutoff of 600 Hz or more) and band passes (corners from 20 to 20000 Hz), in a SimpleSound or in a ComplexSound connected in a row, never panics and outputs the sine of f Hz whose complex amplitude is the product of the transfer functions of the parts, up to a transient that dies out geometrically and a stated rounding error that stays; levels multiply and the order of the modifiers is immaterial to the tone.", "quantifier": "for every frequency of 0 to 48000 Hz, every chain of any length whose overall gain stays below 2^90, every input signal and every number of samples", "why_tests_cant": "it is a limit statement with an error bound over all chains, all lengths and all times, composed from the transfer functions of all parts", "anchors": ["src/sounds/simple_sound.rs:SimpleSound::process", "src/sounds/complex_sound.rs:ComplexSound::process", "src/sounds/standard_block.rs:StandardBlock::process", "src/generators/sine.rs:Sine::process", "src/modifiers/echo.rs:Echo::process", "src/modifiers/delay.rs:Delay::process", "src/modifiers/lowpass.rs:LowPass::process"]}
{"id": "C106", "title": "Dataflow of a ComplexSound on any graph", "statement": "In a ComplexSound with any blocks and any connections (cycles included) every block in the processing order runs exactly once per call on what arrives at it: this call's output of the connected blocks processed before it, and the previous call's output of the connected blocks processed after it (or of itself); the sound puts out the output of the output block. With one input per block there is no delay anywhere; parallel one-block branches are mixed within the same call and scaled by the output gain. Longer branches meeting at the output may be cut (refuted).", "quantifier": "for all block types, edit histories, reachable states, processing orders and input histories in which no block panics", "why_tests_cant": "The delay of an edge depends on the computed order; no finite set of graphs and inputs covers all graphs and block behaviours.", "anchors": ["src/sounds/complex_sound.rs:111-180", "src/sounds/complex_sound.rs:206-234"]}
{"id": "C107", "title": "A rack of modifiers and a chord of sines in a ComplexSound", "statement": "If every block added to a ComplexSound is connected between its input gain and its output gain, then (a) linear modifiers (gain, delay, echo, Generic, low-, high- and band-pass) side by side turn a tone into the tone whose complex amplitude is the sum of the parts' amplitudes, up to stated rounding errors and an error that dies out; a signal beside its own delay is a comb filter whose notches are exactly where the delay is half a period; (b) Sine generators side by side put out the sum of the sines, from the first sample on, whatever is fed in, within n(2^-9 + i 2^-48) + n^2 2^-23 at sample i.", "quantifier": "for all numbers of branches, all parts and frequencies in range, all orders in which blocks were added and connected, all input signals, all lengths", "why_tests_cant": "the statement is over all racks, all frequencies and unboundedly long signals, and the error bound has to hold for every order in which the additions are done", "anchors": ["src/sounds/complex_sound.rs:111-180", "src/sounds/complex_sound.rs:206-234", "src/sounds/standard_block.rs:186-203", "src/generators/sine.rs:48-56", "src/modifiers/delay.rs:35-41"]}
{"id": "C108", "title": "A recorded tone played at another speed is the tone of the multiplied pitch", "statement": "If a track records a smooth curve at its integer times up to eps, then playing it (MonoResampler/MonoWav without a loop, any source rate, any playback speed) puts out, at call i, the curve at time i * rate * speed / 48000, up to eps, the sag of a chord (curvature/8), slope times the drift of the f32 position, and f32 rounding; at the positions just below a power of two the error may be one sample-to-sample step larger. In particular a recorded tone of F Hz is heard as the tone of F * speed Hz, whatever the rate of the recording, and the library's own Sine recorded and played at a speed is the sine of the multiplied frequency.", "quantifier": "for all curves with bounded slope and curvature, all tracks of up to 2^24 samples that record them, all rates and speeds in 1..2^20 and 2^-20..2^20 and all calls before the end of the track", "why_tests_cant": "it quantifies over all curves, tones, rates, speeds and unboundedly many calls, and needs real analysis for the interpolation error", "anchors": ["src/utils/mono_resampler.rs:34-57", "src/utils/mono_resampler.rs:60-86", "src/generators/mono_wav.rs:30-51", "src/generators/sine.rs:48-56"]}
{"id": "C109", "title": "A WAV file keeps its pitch while it plays", "statement": "Relied on: a track sounds at the same pitch from beginning to end. In fact the position is an f32, so between the positions 2^j and 2^(j+1) a resampler advances by exactly the multiple of 2^(j-23) nearest to its step (of two equally near ones the even one, after at most one call). Every track that is long enough comes to that stretch and is heard there at the rounded speed. A tone of F Hz in a 44.1 kHz file played at normal speed sounds at 20/21 F between the file's 2^20th and 2^21st sample (about 24 s to 48 s) and at 160/147 F from the 2^21st to the 2^22nd.", "quantifier": "for all tracks, rates, speeds and stretches between powers of two, all recorded curves and tones, all calls within the stretch", "why_tests_cant": "the effect sets in after a million samples and depends on the rounding of every single addition; the statement is for all tracks and all tones", "anchors": ["src/utils/mono_resampler.rs:10-21", "src/utils/mono_resampler.rs:60-86", "src/generators/mono_wav.rs:30-51"]}
{"id": "C110", "title": "A sound rendered to a file comes back as it was", "statement": "Tracks of finite samples within [-1, 1] (any finite samples if clipping is asked for) written with write_wav at 8, 16 or 24 bits and read with read_wav come back as the same number of tracks of the same lengths whose samples are within [-1, 1] and differ from the (clipped) originals by at most 1/128, 1/65000 and 1/8000000. A track that records a curve still records it after the detour, so a Sine rendered, written, opened as a MonoWav and played at any speed is the sine of the multiplied frequency up to the stated errors, without panics.", "quantifier": "for all tracks, lengths, channel counts up to 65535, bit depths, clip flags, curves, frequencies, playback speeds and numbers of calls", "why_tests_cant": "it composes encoding, interleaving, de-interleaving, decoding, resampling and the sine's accuracy for all samples and unbounded lengths; the 8-bit bound is reached only at one sample value", "anchors": ["src/utils/mod.rs:109-138", "src/utils/mod.rs:175-250", "src/sample_format/mod.rs:100-155", "src/generators/mono_wav.rs:16-51", "src/utils/mono_resampler.rs:60-86"]}
{"id": "C111", "title": "Linear modifiers superpose, commute, do not depend on when they start, and convolve", "statement": "A chain of the library's linear modifiers (pass-through, gain, delay, echo, Generic with feedback coefficients of sum below 1, LowPass and HighPass from 600 Hz on, BandPass), as the program computes it, puts out the convolution of its input with the chain's impulse response, up to the stated rounding errors; so a mix of two signals comes out as the mix of the two outputs, and the order of the modifiers does not matter, up to those errors. A fresh chain that is fed silence first plays silence and then exactly what it would have played at once, up to the sign of zeros, for any samples including infinities and NaNs. The chain's frequency response is the Fourier series of its impulse response, which is absolutely summable, with the product of the gains as a bound for the largest output.", "quantifier": "for all chains of modifiers in range of any length, all finite input signals of any amplitude up to the stated one and any length, all mixing factors, all orders of the modifiers, all lengths of the silence, all frequencies", "why_tests_cant": "it compares whole runs on different inputs and of different chains, for all signals, and relates time to frequency by an infinite series", "anchors": ["src/modifiers/lowpass.rs:82-93", "src/modifiers/highpass.rs:110-122", "src/modifiers/bandpass.rs:134-145", "src/modifiers/echo.rs:32-37", "src/modifiers/delay.rs:35-39", "src/modifiers/gain.rs:22-24", "src/sounds/simple_sound.rs:117-131"]}
{"id": "C112", "title": "A Square of any frequency is the square wave", "statement": "A new Square of any frequency between 2^-20 and 24000 Hz, whether or not its period is a whole number of samples, puts out exactly the square wave of that frequency (1 in the first half of every period, -1 in the second) at every sample that is further than n * 2^-50 periods from an edge, where n is the number of the sample: the rounding of the stored half period and of the phase never adds up to more.", "quantifier": "for every frequency in range and every sample of an unboundedly long run", "why_tests_cant": "the frequencies whose half period is not a whole number of samples are almost all of them, and the drift has to be bounded over all wraps of the phase", "anchors": ["src/generators/square.rs:14-45"]}
{"id": "C113", "title": "Generators whose frequency is changed while they run", "statement": "Whatever the sequence of set_frequency calls between samples (sweeps, vibrato, melodies), a Sine follows the sine of the accumulated phase, that is of the sum of f_i / 48000 over the frequencies in force at the samples so far, without clicks, within 2^-9 + i 2^-48, and a Sawtooth follows the sawtooth of the accumulated phase within 2^-25 + i 2^-51 away from its jump. Relied on but false for the Triangle: setting its frequency before every sample, even to the value it already has, leaves it stuck within 4f/48000 of the top for ever once a quarter of a period has passed (a constant instead of a tone); for the Square see the refutation of its phase on frequency changes.", "quantifier": "for every history of frequency changes and samples with frequencies in range, of any length", "why_tests_cant": "it is a statement about all modulation histories; tests sample a few constant frequencies", "anchors": ["src/generators/sine.rs:38-67", "src/generators/sawtooth.rs:23-43", "src/generators/triangle.rs:21-47", "src/generators/mod.rs:FreqMod"]}
{"id": "C114", "title": "Branches of a ComplexSound are mixed in step", "statement": "If the connections of a ComplexSound fork but only meet again at the output gain, and all but one of the paths from the input gain to the output gain are within one block of the longest, then process_order processes every block and each after the block that feeds it, whatever the order in which the connections were made; so no connection delays anything, and each call returns the sum over the paths of what the blocks of the path, one after the other, make of the input in that call, between the two gains. Relied on but false beyond that: with paths of 0, 1 and 3 blocks, connected in a certain order, the last block of the longest path is never processed.", "quantifier": "for all graphs of this shape with any number of blocks, paths and forks, all orders of the edits that build them, all user block types, all inputs and numbers of calls", "why_tests_cant": "the outcome depends on the order in which connections are made and on the lengths of all branches together; a test sees a handful of the unboundedly many graphs", "anchors": ["src/sounds/complex_sound.rs:process_order", "src/sounds/complex_sound.rs:process", "src/sounds/complex_sound.rs:add_connection"]}
{"id": "C115", "title": "Effects on parallel branches of a ComplexSound add up", "statement": "With linear modifiers as the blocks of such branches a tone comes out as a tone whose complex amplitude is the sum over the paths of the products of the parts' responses along the path, up to the parts' stated errors, the rounding of the additions and an error that dies out exponentially. A signal beside its own delay of n samples at gain a is a comb filter of power response 1 + 2 a cos(n omega) + a^2.", "quantifier": "for all branching graphs of this shape, all linear modifiers in range, all frequencies, amplitudes in range and unboundedly long inputs", "why_tests_cant": "it is a statement about all frequencies and all graphs, in the limit of long inputs, with bounds for the accumulated rounding", "anchors": ["src/sounds/complex_sound.rs:process", "src/modifiers/delay.rs:35-39", "src/modifiers/gain.rs:22-24", "src/modifiers/echo.rs:32-37", "src/modifiers/lowpass.rs:82-93"]}
{"id": "C116", "title": "Feedback connections of a ComplexSound", "statement": "Connections that lead back to a block upstream (one through which every way from a source to the start of the connection passes) leave the order of processing as it is without them. If the remaining connections are branches in step, every block is processed, after the blocks that feed it forward and before those that feed back to it, so that in each call it gets this call's outputs of the former and exactly the previous call's outputs of the latter. Hence a loop around a Delay of d samples and a Gain is an Echo of d + 1 samples, up to the signs of zeros (a loop around a Delay meant to repeat every d samples repeats every d + 1). Relied on but false for the shortest loop: a block connected to itself can cut the end off the chain behind it, depending on whether that connection is made before or after the forward one.", "quantifier": "for all graphs with any number of blocks, branches and feedback connections, all orders of the edits that build them, all user block types, all inputs and numbers of calls; all delays and gains for the loop", "why_tests_cant": "whether a cyclic graph is ordered properly depends on the order of all edits; a test sees a handful of graphs and a few calls", "anchors": ["src/sounds/complex_sound.rs:process_order", "src/sounds/complex_sound.rs:process", "src/sounds/complex_sound.rs:add_connection", "src/modifiers/echo.rs:32-37", "src/modifiers/delay.rs:35-39"]}
{"id": "C117", "title": "A looped recording of whole periods is an endless tone", "statement": "A MonoResampler whose track records a smooth curve that repeats after the length of the loop, the loop ending before the last sample, returns that curve at the speeded-up time in every call, without panic and without click at the seam, up to the recording error, the sag of the chords and a drift proportional to the number of calls; a tone with a whole number of periods in the loop is heard as a tone of its frequency times the speed. When the step is a multiple of the spacing of the floats at the end of the loop there is no drift, and the bound is the same after any time. Relied on but false for a loop that ends with the track: at the seam it interpolates towards the sample before the loop.", "quantifier": "for all tracks up to 2^23 samples, loops, rates, speeds up to the length of the loop less one, all smooth curves of the loop's period and unboundedly many calls", "why_tests_cant": "it is about all times, an endless run, and every position relative to the seam; a test plays a few loops for a short while", "anchors": ["src/utils/mono_resampler.rs:60-86", "src/utils/mono_resampler.rs:34-57"]}
{"id": "C118", "title": "A note is its waveform times the envelope asked for", "statement": "The gain of ADSR::new(a, d, s, r) follows, at every one of any number of samples, the piecewise linear curve that rises from 0 to 1 in the attack time, falls to the sustain level in the decay time and stays there, and, once released at any moment, falls from where it is at the rate of the sustain level per release time to 0, where it stays; the error is bounded by a constant that depends only on the three times and the level, not on how long the note is held. So a Sine followed by an ADSR in a SimpleSound is the sine times this curve, whatever is fed in.", "quantifier": "for all attack times up to 87 s, all decay and release times, sustain levels, moments of release, lengths of notes, inputs, frequencies up to 48 kHz", "why_tests_cant": "phases follow one another and each inherits the rounding of the one before; tests look at a few times and a few samples", "anchors": ["src/modifiers/adsr.rs:25-57", "src/modifiers/adsr.rs:61-90", "src/generators/sine.rs:38-67", "src/sounds/simple_sound.rs:process"]}
{"id": "C119", "title": "Generic filters with little feedback play their difference equation", "statement": "The difference equation y[n] = sum z_i x[n-i] + sum p_j y[n-1-j] of a Generic filter has exactly one solution for every input. If the magnitudes of the feedback coefficients p_j sum up to less than 1 (by a margin for rounding), the filter never panics, its output stays finite and below weight(z) / (1 - weight(p)) times the input's amplitude plus rounding, and it is the solution up to a rounding error that does not grow with time; the solution is the convolution with its impulse response, and a tone comes out as the tone times sum z_i e^(-j om i) / (1 - sum p_j e^(-j om (j+1))). Relied on but false at a sum of exactly 1: the filter then may grow without bound (it counts to 2^24).", "quantifier": "for all lists of feed-forward and feedback coefficients of any length with feed-forward weight up to 4096, all finite inputs of amplitude up to 2^90, unboundedly many samples, all frequencies", "why_tests_cant": "rounding errors are fed back for ever, so the statement is about unboundedly long runs; and it is about all coefficient lists and all frequencies", "anchors": ["src/modifiers/generic.rs:30-59", "src/modifiers/generic.rs:63-80"]}
{"id": "C120", "title": "Linear modifiers in a feedback loop of a ComplexSound", "statement": "Linear modifiers connected in a row, the last one back to the first, heard after any one of them: whatever the order of adding and connecting, the signal u that goes round satisfies u[n] = x[n] + (h * u)[n-1], h being the impulse response of the row, x the input after the input gain: a round takes one sample more than the blocks themselves. The equation has exactly one solution. If the gains of the parts multiply to less than 1 (by a margin for rounding), no sample overflows, the sound puts out the solution convolved with the modifiers up to the tap, up to rounding errors bounded independently of the number of rounds, and a tone comes out as a tone of complex amplitude H_tap w / (1 - e^(-j om) H_row), plus an error that dies out. A delay of D samples in a loop therefore resonates at multiples of 1/(D+1) of the sample rate. A loop of gain 1 adds up its input without end.", "quantifier": "for all rows of at least two linear modifiers (gain, delay, echo, low pass, high pass, band pass, Generic), all taps, orders of edits, gains of the sound, frequencies, inputs within the room and unboundedly many samples", "why_tests_cant": "every rounding error goes round for ever, and the order of processing decides where the sample of delay is; a test sees a few graphs and a short run", "anchors": ["src/sounds/complex_sound.rs:process_order", "src/sounds/complex_sound.rs:process", "src/sounds/complex_sound.rs:add_connection", "src/modifiers/delay.rs:35-39", "src/modifiers/gain.rs:21-25"]}
{"id": "C121", "title": "Filters whose parameters are changed while they run", "statement": "Setting the cutoff or resonance of a LowPass or HighPass, or the frequency, quality or corners of a BandPass, in the middle of a sound keeps the remembered samples, so there is no jump to silence: from the very next sample on the filter follows the exact filter with the new parameters started from what it remembers, within a fixed fraction of the amplitude, and in the end it follows the exact filter that was at rest when the parameters were changed; so a tone comes out with the gain and phase of the new setting, whatever was heard before. Relied on but false if parameters are changed all the time: a BandPass whose corners are set before every sample, alternately to 1000/2000 Hz and 19800/19900 Hz, each of which alone keeps every output below 38 times the input, turns a single click into an infinity or NaN.", "quantifier": "for all states of the filter with finite remembered samples, all new parameters in the range of C93 (cutoff 600 Hz to 24 kHz, corners 20 Hz to 20 kHz), all inputs loud enough to allow for the remembered samples, unboundedly many samples, all frequencies; the refutation for every libm with an accurate tan", "why_tests_cant": "what is remembered at the moment of the change can be anything, and its effect is over only in the limit; the blow-up takes hundreds of samples and a particular pair of settings", "anchors": ["src/modifiers/lowpass.rs:47-65", "src/modifiers/highpass.rs:71-89", "src/modifiers/bandpass.rs:67-113", "src/modifiers/bandpass.rs:134-145"]}
{"id": "C122", "title": "Chords and repeating waveforms through a chain of linear modifiers", "statement": "Several tones at once through a chain of linear modifiers come out as the same tones, each multiplied by the chain's response at its own frequency, up to the chain's rounding errors and an error that dies out. A waveform that repeats every P samples is the sum of its P harmonics, so it ends up as a waveform of the same period, harmonic by harmonic multiplied by the response, never beyond the product of the gains times its amplitude; a wave whose second half is its first half upside down stays one, so it has no mean and no even harmonics before and after. A Square of a frequency that divides 24000 Hz or a Triangle of any frequency in a whole-number ratio to the sample rate, followed by any chain in a SimpleSound, is such a wave from the first sample on (the Triangle up to the drift of its phase).", "quantifier": "for all chains of linear modifiers (gain, delay, echo, low pass, high pass, band pass, Generic) in the range of C105, all lists of tones, all periods and waveforms, all amplitudes within the room, unboundedly many samples, all divisors of 24000", "why_tests_cant": "it is about all waveforms and all chains, and about what is left after the start has died out", "anchors": ["src/modifiers/lowpass.rs:82-93", "src/modifiers/highpass.rs:110-122", "src/modifiers/bandpass.rs:134-145", "src/modifiers/generic.rs:63-80", "src/modifiers/delay.rs:35-39", "src/modifiers/echo.rs:32-37", "src/modifiers/gain.rs:21-25", "src/generators/square.rs:31-45", "src/generators/triangle.rs:31-47", "src/sounds/simple_sound.rs:process"]}
{"id": "C123", "title": "The order in which a channel mixes its sounds", "statement": "A StandardChannel keeps its sounds in a HashMap, whose order of iteration is unspecified, and f32 addition is not associative. This is about the mixing loop on a buffer of any content; through the present API the buffer is always empty (C72). Whatever the order, process leaves the sounds in the same states and each sample of the buffer is the exact mix (buffer plus samples, times gain) up to one rounding per sound and one for the gain, for Mono and for either side of Stereo. Two sounds into a cleared buffer give the same bits in either order, and so do any number of sounds on a common binary grid, such as up to 131071 sounds of 8-bit samples. Relied on but false in general: the same channel need not give the same bits again, already with three sounds.", "quantifier": "for all channels of any number of distinct sounds, all orders, all buffers of any length, all gains and samples within the room; the two-sound case for all f32 samples including infinities and NaN", "why_tests_cant": "the order is chosen by a randomly seeded hasher, so a test sees one of n! orders, and the differences are in the last bits of some samples only", "anchors": ["src/channels/standard_channel.rs:64-74", "src/sample_format/mono.rs:79-81", "src/sample_format/mono.rs:124-126", "src/sample_format/stereo.rs:126-129", "src/sample_format/stereo.rs:177-180"]}
{"id": "C124", "title": "Ring modulation", "statement": "A StandardBlock of a Sine and a modifier with the default interactor multiplies what the modifier puts out by the sine and is never louder than it. So every tone of frequency f that comes in gives way to two tones, f + c and f - c for a sine of c Hz, half as loud each; sums above 24000 Hz are heard as their difference to 48000 Hz; a sine multiplied by itself is its octave on top of a constant one half. A Sine ring modulated by another and sent through a chain of linear modifiers plays the two sidebands, each with the chain's response at its own frequency, up to the errors of the two sines, of the chain, and one that dies out.", "quantifier": "for all frequencies from 0 to 48000 Hz, all chords, all finite input signals, all modifiers that do not panic, all chains in the range of C105, unboundedly many samples, every libm with an accurate sine", "why_tests_cant": "it is about the spectrum of unboundedly long signals for all pairs of frequencies", "anchors": ["src/sounds/standard_block.rs:default_interactor", "src/sounds/standard_block.rs:StandardBlock::process", "src/generators/sine.rs:Sine::process", "src/sounds/simple_sound.rs:SimpleSound::process"]}
{"id": "C125", "title": "Playback at speeds set before every sample", "statement": "A MonoResampler without a loop may have its speed changed before every sample. As long as each step is a multiple of the binary fraction that goes with the track's length (whole speeds, halves, quarters and so on at 48000 Hz), there is no drift: the position is exactly the sum of the steps so far, the output is the track interpolated there, the very sample at whole positions, and silence exactly from the moment the sum reaches the length; it never panics. So speed 2 plays every second sample, speed 1/2 the samples and the points halfway between them. Relied on but false for other speeds: ten calls at speed 1/10 do not move on by exactly one sample.", "quantifier": "for all tracks of up to 2^23 samples within the room, all rates, all lists of speeds of any length whose steps are such multiples, every call", "why_tests_cant": "the position is a sum of unboundedly many steps in f32, in any order of any speeds; exactness of every sum cannot be seen from a few", "anchors": ["src/utils/mono_resampler.rs:50-57", "src/utils/mono_resampler.rs:60-85"]}
{"id": "C126", "title": "Opening a WAV file and saving it again", "statement": "Reading any WAV file of whole frames and writing its tracks at the same bit depth gives the same integers in the same places, and so does the detour over a file of greater depth and back, clipped or not, as long as the most negative integer does not occur; a file that ends within a frame can be read but is refused when saved. Relied on but false: the sample rate of the file is not kept, every saved file says 48000 Hz, so a file of another rate changes its pitch; saving with clipping turns every -32768 of a 16-bit file into -32767; and saving a 16-bit file that holds -32768 with 24 bits and no clipping puts an integer into it that has no 24 bits.", "quantifier": "for all files (from any program) of 1 to 65535 channels, 8, 16 or 24 bits and any number of frames, all pairs of depths, clipping on or off", "why_tests_cant": "every integer in every place of a file of any size has to come back, through two different scalings and roundings", "anchors": ["src/utils/mod.rs:109-138", "src/utils/mod.rs:175-250", "src/sample_format/mod.rs:106-155"]}
{"id": "C127", "title": "What normalising does to the waveform", "statement": "normalize subtracts one constant from every sample and multiplies by one positive number, so the waveform keeps its shape: each output is g(s - c) up to 2^-22 of itself, c is the mean of the track up to one f32 rounding per sample and one for the division (to 2^-25 for 8-bit tracks, whose sum is exact), g brings the loudest sample to the target level within 2^-22, and no two samples change their order. A track already at the target with a small mean is changed as little, so normalising an 8-bit track twice moves no sample by more than (n + 128) 2^-21 of the target. Relied on but false: a constant track becomes silent. 2^25 or more ones come out at full level, because the f32 sum stops at 2^24 and the mean is taken for at most one half; 2^24 or fewer come out as NaN.", "quantifier": "for all tracks of up to 2^24 samples of magnitude up to 2^60 that are not constant, all 8-bit tracks of up to 131071 samples with two different values, all target levels from 2^-60 to 2^60, every libm; the constant case for all lengths up to 2^24 and from 2^25 to 2^64 - 1", "why_tests_cant": "the mean is a rounded sum over every sample of a track of any length, and the constant only goes wrong after ten minutes of audio", "anchors": ["src/utils/mod.rs:66-89"]}
