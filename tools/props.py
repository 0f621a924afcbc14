import json
P=[]
def p(title,statement,quant,why,*anchors):
    P.append(dict(id="C%02d"%(len(P)+1),title=title,statement=statement,quantifier=quant,why_tests_cant=why,anchors=list(anchors)))

SF="src/sample_format/mod.rs"; MO="src/sample_format/mono.rs"; ST="src/sample_format/stereo.rs"
UT="src/utils/mod.rs"; RS="src/utils/mono_resampler.rs"
# ---------------- sample format
p("8-bit samples survive decode/encode",
  "For every byte v, sample_to_u8(sample_from_u8(v)) == v, and the raw-byte entry points agree with the integer ones (sample_from_u8_bytes([v]) == sample_from_u8(v), sample_to_u8_bytes(s) == [sample_to_u8(s)]).",
  "every u8 value (and, for the encoder, every f32 including infinities and NaN)","a test samples a handful of bytes; the claim is about IEEE-754 rounding on the whole domain",SF+":sample_from_u8",SF+":sample_to_u8",SF+":sample_from_u8_bytes",SF+":sample_to_u8_bytes")
p("16-bit samples survive decode/encode",
  "For every i16 v, sample_to_i16(sample_from_i16(v)) == v, and the two-byte little-endian forms round-trip too: decoding the bytes produced for the decoded value gives the same sample and the same bytes.",
  "every i16 value / every pair of bytes","65536 values through two f32 roundings and a round-half-away; tests sample",SF+":sample_from_i16",SF+":sample_to_i16",SF+":sample_from_i16_bytes",SF+":sample_to_i16_bytes")
p("24-bit integer samples survive decode/encode",
  "For every v in [-2^23, 2^23-1], sample_to_i24(sample_from_i24(v)) == v although both the division and the multiplication round in f32.",
  "all 2^24 24-bit values","16.7 million values, each near the limit of f32 precision",SF+":sample_from_i24",SF+":sample_to_i24")
p("24-bit byte form round-trips exactly for non-negative samples only",
  "Relied on: sample_from_i24_bytes inverts sample_to_i24_bytes. Actual behaviour, for every 24-bit v: encoding sample_from_i24(v) to three bytes and decoding gives back sample_from_i24(v) if and only if v >= 0; for v < 0 the decoder does not sign-extend and yields sample_from_i24(v + 2^24), a positive sample.",
  "all 2^24 24-bit values / all byte triples","needs every negative value, and the exact set on which the round trip holds",SF+":sample_from_i24_bytes",SF+":sample_to_i24_bytes")
p("Quantisation is nearest-step accurate",
  "For every f32 s in [-1,1]: sample_to_i16(s) differs from 32767*s, sample_to_u8(s) from 128*s+128 (capped at 255), and sample_to_i24(s) from (2^23-1)*s by at most half a step plus the f32 rounding of the product/sum.",
  "every finite f32 in [-1,1]","2^31 inputs; the worst case sits at rounding ties",SF+":sample_to_u8",SF+":sample_to_i16",SF+":sample_to_i24")
p("Quantisation is monotone and saturates",
  "For all f32 s <= t (infinities included) sample_to_u8/i16/i24 are ordered the same way; results of the 8- and 16-bit encoders are always within u8 / i16 (out-of-range input saturates to the end of the range) and NaN encodes to integer 0 (which for 8 bit is full negative amplitude, not silence).",
  "every pair of f32 values, including NaN and infinities","pairs of floats; ordering across rounding and saturation boundaries",SF+":sample_to_u8",SF+":sample_to_i16",SF+":sample_to_i24")
p("The 24-bit encoder stays in 24 bits exactly when the sample is in range",
  "sample_to_i24(s) lies in [-(2^23-1), 2^23-1] for |s| <= 1 and for no other sample, and its three bytes mean it modulo 2^24; relied-on saturation outside does not happen: there are finite s for which the result does not fit 24 bits and the three-byte form wraps to a sample of the opposite sign.",
  "every f32","needs the whole range plus a witness outside it",SF+":sample_to_i24",SF+":sample_to_i24_bytes")
p("Mono operators agree with their assigning forms, except subtraction",
  "For all operands, x op= y leaves x equal to x op y for +, * (Mono, f32, f64) on Mono. For -, `a - b` computes a + b, so it agrees with `a -= b` only when a+b = a-b in f32; the relied-on law a - b == (a -= b) is violated. Adding the sample made by new() changes no finite sample.",
  "every pair of Mono samples / gains","law over all float pairs; the failing operator is not covered by any test",MO+":Sub",MO+":SubAssign",MO+":Add",MO+":Mul")
p("Stereo operators act channel-wise and agree with their assigning forms, except *= f64",
  "For all operands every Stereo operator acts on left and right independently and equals its assigning form, except Mul<f64>/MulAssign<f64>: `*` computes in f64 and rounds once, `*=` first rounds the factor to f32, and there are operands on which the results differ. Adding the sample made by new() changes no finite channel.",
  "every pair of Stereo samples / gains","law over all float pairs; difference needs a double-rounding witness",ST+":Mul",ST+":MulAssign")
p("Mono sample conversion is lossless; Stereo conversion doubles",
  "For every f32 x, Mono::from_sample(x).into_sample() == x. For Stereo the relied-on round trip fails: the result is x scaled by two (within f32 rounding) for every x in the normal range that does not overflow.",
  "every f32","relative-error claim over the whole normal range",MO+":SampleFormat for Mono",ST+":SampleFormat for Stereo")
p("Integer-vector conversion of sample formats",
  "For u8, i16 and i32 vectors: TryFrom fails exactly when the vector is shorter than num_samples(), otherwise depends only on the first num_samples() elements; Into produces exactly num_samples() integers; converting the integers of any valid frame to a sample and back gives the same integers; and the value built is the constructor applied to the decoded integers in order.",
  "every vector of any length","all lengths and contents",MO+":TryFrom",MO+":Into",ST+":TryFrom",ST+":Into")
p("Stereo panning clamps its position and is independent of position type",
  "For every sample and every pan position g, panning with g outside [-1,1] equals panning with g clamped to the nearer end, and panning with an f32 position equals panning with the same position as f64. Panning to Mono keeps the sample whatever the position.",
  "every f32 sample, every f32/f64 position incl. infinities","continuum of positions",ST+":Panner<f32> for Stereo",ST+":Panner<f64> for Stereo",UT+":clerp")
p("Panning direction",
  "Relied on: -1 is full left and 1 full right. Actual: the gains in dB at -1 are left -3, right 0; at 1 left -3, right -120; at 0 left -120, right -3. So at full left the right channel is strictly louder than the left for every positive sample and any pow accurate to a relative 2^-40.",
  "every sample in [2^-100,2^100] and every pow implementation accurate to 2^-40","statement about all samples and all libm implementations",ST+":to_sample_format")
# ---------------- utils
p("clamp / clerp stay in range and hit the end points",
  "For all non-NaN f64 x, x1, x2 the clamped value lies between the smaller and larger bound, equals x inside, and swapping the bounds changes nothing; consequently clerp equals clerp at the nearer end for every x outside. clerp at x <= x1 (x1 < x2, finite slope) returns y1 exactly. In exact arithmetic clerp lies between y1 and y2, is monotone and reaches y1 and y2 at the ends.",
  "every input triple / quintuple","five-dimensional float domain",UT+":clamp",UT+":clerp",UT+":lerp")
p("Sample/second conversion is inverse",
  "Relied on: seconds_to_samples(samples_to_seconds(n)) == n. Actual: samples_to_seconds multiplies by the sample rate instead of dividing, so for every n with 0 < n <= 2^20 the round trip gives 48000^2*n (never n).",
  "every sample count in the range","universally false; a test would need to exist",UT+":samples_to_seconds",UT+":seconds_to_samples")
p("seconds_to_samples rounds to the nearest sample",
  "For every duration up to 2^32 seconds, seconds_to_samples(d) is within 1/2 + 2^-5 of 48000*d (d in exact seconds) and is monotone in d.",
  "every Duration value (secs, nanos) in the range","2^62 durations with three f64 roundings",UT+":seconds_to_samples")
p("Decibel conversions are mutually inverse",
  "In exact arithmetic linear_to_db(db_to_linear(x)) = x for all x and db_to_linear(linear_to_db(g)) = g for all g > 0; db_to_linear is positive and strictly increasing with db_to_linear(0) = 1.",
  "every real number","continuum",UT+":linear_to_db",UT+":db_to_linear")
p("normalize reaches the requested peak",
  "For every non-empty finite track whose samples are not all equal to the computed mean and stay within amplitude bounds that avoid overflow/underflow, after normalize(db) every |sample| <= the peak, some sample attains the peak, and the peak is within a relative 2^-22 of db_to_linear(db) as f32. A track in which every sample equals the computed mean (e.g. silence) becomes entirely NaN.",
  "every track length and content; every target","arbitrary-length tracks, rounding in the max element",UT+":normalize")
p("write_wav accepts exactly the documented inputs",
  "write_wav returns an error exactly when there are no tracks, two tracks differ in length, the bit depth is not 8/16/24 (or the underlying writer fails); in particular one or more empty tracks are accepted although the documentation lists 'no data' as an error.",
  "every list of tracks, bit depth and clip flag","all shapes of input",UT+":write_wav")
p("WAV write then read preserves channels and quantised samples",
  "For every list of 1..65535 equal-length tracks and each bit depth, reading back what write_wav emitted (the container being lossless) yields the same number of tracks, each of the same length, sample i of track c being the decoded quantisation of sample i of track c; and re-encoding what was read yields identical integers.",
  "every track count up to 65535, every length, every sample","interleaving index arithmetic for all shapes",UT+":write_wav",UT+":read_wav")
p("Reading distributes every integer exactly once, round-robin",
  "For every channel count n > 0 and every data vector, read_wav returns n tracks; track c holds exactly the elements at positions congruent to c modulo n, in order; track lengths differ by at most one. With n = 0 and non-empty data of a supported depth, it panics (remainder by zero).",
  "every channel count and data vector","all shapes of input",UT+":read_wav")
p("Clipping",
  "With clip = true every non-NaN sample handed to the encoder lies in [-1,1], samples already inside are unchanged, and hence every emitted integer fits the chosen bit depth; with clip = false this fails for 24 bit.",
  "every track content","all floats",UT+":write_wav")
p("Channel count in the WAV header wraps",
  "The header's channel count equals the number of tracks for up to 65535 tracks and is the track count modulo 65536 beyond that; with 65536 tracks the file announces 0 channels and reading it back panics.",
  "every number of tracks","needs tens of thousands of tracks",UT+":write_wav",UT+":read_wav")
# ---------------- resampler
p("Unity-rate playback is the identity",
  "For every finite track of at most 2^24 samples with finite differences recorded at 48 kHz, a non-looping resampler at speed 1 outputs the track's samples in order (as real values), then exact zeros forever.",
  "every track up to 2^24 samples, every number of calls","unbounded number of calls, all contents",RS+":MonoResampler::process",RS+":MonoResampler::new","src/generators/mono_wav.rs")
p("Non-looping playback never panics",
  "Relied on: process never panics. Exact behaviour for tracks of at most 2^24 samples: process panics if and only if the track has 2^k+1 samples (0 <= k <= 22) and the position is the largest f32 below 2^k, because position + 1 then rounds up to the track length. Hence for every track length not of that form no history of set_playback_speed (any f64, including negative, infinite, NaN) and process calls panics at any source rate, and for every track length of that form (a 2-sample track included) some speed makes the second process call panic. Tracks longer than 2^24 samples can panic as well.",
  "every track, rate and call history","histories are unbounded; the failing position is one float in 2^31",RS+":MonoResampler::process",RS+":MonoResampler::set_playback_speed")
p("Resampled output does not exceed the source peak",
  "If every source sample has magnitude at most 2^e (for some representable power of two), then for every history with non-negative finite position every output of a non-looping or looping resampler has magnitude at most 2^e.",
  "every track, every position","interpolation rounding over all float positions",RS+":MonoResampler::process")
p("Looping playback stays inside the loop",
  "If loop_start < loop_end <= track length <= 2^23, the length is not 2^k+1, and every per-call step is between 0 and the loop length minus one, then for every history no panic occurs and the position stays in [0, loop_end) (for length 2^k+1 the only panicking position is the largest f32 below 2^k). At unity rate output n is sample n up to loop_end and then loop_start + (n - loop_end) mod (loop_end - loop_start). With loop_end greater than the track length, or an empty loop, unity playback panics exactly at call length+1.",
  "every track, loop, history and number of calls","unbounded playback; rounding of the f32 position",RS+":MonoResampler::new",RS+":MonoResampler::process")
p("loop_end = 0 means no looping",
  "Relied on: loop_end = 0 disables looping. Actual: new swaps the bounds whenever loop_end < loop_start, so for every loop_start > 0 passing loop_end = 0 enables a loop over [0, loop_start).",
  "every loop_start > 0","universally false",RS+":MonoResampler::new")
p("Playback terminates",
  "Non-looping unity-rate playback of at most 2^24 samples reaches permanent silence after exactly len calls; a longer track never ends: the f32 position sticks at 2^24 and the same sample is returned forever.",
  "every track length, every number of further calls","the failure needs more than 2^24 calls",RS+":MonoResampler::process")
# ---------------- generators
p("Sawtooth stays in range for every history",
  "For every interleaving of process and set_frequency with frequencies in [0, 24000] Hz, every sample is in [-1, 1]. For negative frequencies this fails: the phase decreases without bound.",
  "every history of frequency changes and samples","unbounded histories of rounded additions","src/generators/sawtooth.rs")
p("Sawtooth phase drift is bounded",
  "For every frequency in [0,24000] and every n, the phase after n samples differs from the exact accumulated phase n*irate reduced by the number of wraps (an integer multiple of 2) by at most n*2^-53.",
  "every n and frequency","accumulated rounding over unbounded time","src/generators/sawtooth.rs")
p("Triangle stays in range for every history",
  "For every interleaving of process and set_frequency with |f| <= 24000, every triangle sample is in [-1,1] and consecutive internal values differ by at most the rate plus 2^-52 of rounding.",
  "every history","unbounded histories","src/generators/triangle.rs")
p("Triangle reports the frequency that was set",
  "Relied on: get_frequency returns the frequency set. Actual: it returns f or -f depending on the slope of the current half-period, and a clone made on the falling half starts in the wrong direction; exact characterisation of the sign after any number of samples.",
  "every history","depends on the number of processed samples","src/generators/triangle.rs")
p("Square emits only +1/-1 with exact period and duty cycle",
  "Every sample of every history is exactly 1 or -1. If the half period is an integer m (1 <= m <= 2^50), sample k is 1 iff k mod 2m < m, for every k.",
  "every history; every k and m","unbounded time","src/generators/square.rs")
p("Square frequency change takes effect at once",
  "Relied on: after set_frequency the output has the new period. Actual: raising the frequency can leave the phase beyond the new period; the output then stays at +1 for as many samples as single-step catch-up needs - for a change to a half period <= 1/2 (f >= 48 kHz), forever.",
  "every phase and new frequency","history dependent","src/generators/square.rs")
p("Sine never indexes outside its table for audible frequencies",
  "For every history of process and set_frequency with 0 <= f <= 48000 no panic occurs and every output is in [-1,1] (given a sin that stays in [-1,1]). For f = 96000 the second call panics.",
  "every history; every sin implementation bounded by 1","unbounded histories of rounded additions","src/generators/sine.rs")
p("Sine of a negative frequency is silent",
  "For every negative finite frequency of magnitude at most 2^900 and every number of calls, every output is zero (given sin(0)=0 and |sin|<=1), instead of the mirrored sine.",
  "every negative frequency and number of calls","history quantification","src/generators/sine.rs")
p("Noise range",
  "For every value the random engine can return (a multiple of 2^-24 in [0,1)), the noise sample is exactly 2u-1, hence in [-1, 1).",
  "every engine output","2^24 outputs","src/generators/noise.rs")
p("Frequency getters invert setters",
  "For Sawtooth, Triangle (freshly set), Sine and Square and every normal frequency f in [2^-20, 2^20], get_frequency after set_frequency/new is within relative 2^-50 of f, and set_frequency does not move the phase.",
  "every frequency in the range","continuum; a few ulps","src/generators/sine.rs:FreqMod","src/generators/sawtooth.rs:FreqMod","src/generators/square.rs:FreqMod","src/generators/triangle.rs:FreqMod")
p("Cloned generators restart from phase zero",
  "Cloning Sawtooth, Square, Sine or MonoWav at any point of any history gives an object that behaves on every later call exactly like one freshly created with the same increment; for Triangle the same holds only up to the slope sign.",
  "every history before and after the clone","unbounded histories","src/generators/sine.rs:Clone","src/generators/sawtooth.rs:Clone","src/generators/square.rs:Clone","src/generators/triangle.rs:Clone","src/generators/noise.rs:Clone","src/generators/mono_wav.rs:Clone")
# ---------------- modifiers
p("Delay is an exact delay line",
  "A Delay of n samples outputs, for every input sequence, zeros for the first n calls and afterwards bit-exactly the input n calls earlier; its length never changes; it never panics (n = 0 is the identity).",
  "every n and every input sequence","unbounded sequences","src/modifiers/delay.rs")
p("Delay length and get_delay",
  "Delay::new(d) holds the number of samples nearest to 48000*d, and Delay::new(x.get_delay()) has the same length as x for every length up to 2^32.",
  "every duration; every length up to 2^32","durations are 64+32 bit","src/modifiers/delay.rs")
p("Cloned delay lines behave like fresh ones",
  "Relied on: a clone has the same delay. Actual: Delay and Echo clones hold 48000 times as many samples, so a clone delays by 48000*n samples for every n > 0.",
  "every length","universally false for n > 0","src/modifiers/delay.rs","src/modifiers/echo.rs")
p("Echo recurrence",
  "An Echo over n > 0 samples with gain g outputs y[k] = g*y[k-n] + x[k] (y = 0 before start), with the f32 rounding of the product and the sum, for every input sequence; with n = 0 (any duration shorter than one sample) the first process call panics.",
  "every n, gain and input sequence","unbounded sequences","src/modifiers/echo.rs")
p("Echo is bounded for feedback below one",
  "If |x[k]| <= X for all k and B is a normal f32 (at least 2^-125) with |g|*B + X <= B (in reals), every output is finite and of magnitude at most B, for every input sequence - no accumulated rounding can exceed it.",
  "every input sequence, gain, delay","unbounded accumulation of rounding","src/modifiers/echo.rs")
p("ADSR envelope phases and gain range",
  "For every history of process and release calls, with parameters as produced by new for positive times and a sustain level in [0,1]: the gain stays in [0,1]; phases advance only Attack->Decay->Sustain, and to Release/Stopped only after release; the gain is non-decreasing in Attack and non-increasing in Decay and Release; once stopped, output is zero until release is called again, and zero-gain afterwards.",
  "every history of calls and samples","unbounded histories","src/modifiers/adsr.rs")
p("ADSR attack completes",
  "Relied on: an attack of n samples ends after about n calls. Holds up to 2^22 samples (about 87 s): it ends within 2n+2 calls; below 699 s it still ends, within 2^26 calls; from 700 s on the f32 gain stalls at or below 1/2 and the attack never ends.",
  "every attack time, unbounded calls","stall needs tens of millions of calls","src/modifiers/adsr.rs")
p("ADSR release completes",
  "Relied on: after release the sound stops. Actual: the step is sized for the sustain level, so when released at gain 2^k with a step of at most 2^(k-25) (for example sustain -60 dB, release 1 s, released at full gain) the gain never changes and the sound never stops; when the gain is at most 2^k and the step above 2^(k-25) it stops within 2^26 calls, and from 2^(k-24) on within 2*gain/step calls.",
  "every parameter set, unbounded calls","non-termination","src/modifiers/adsr.rs")
p("ADSR with zero decay",
  "With decay time zero and a sustain level of 0 dB the decay step is 0/0 = NaN and from the first decay sample on every output is NaN, for every input, until release is called (and after).",
  "every input sequence","unbounded; needs the NaN propagation argument","src/modifiers/adsr.rs")
p("Filter parameters are always clamped",
  "After any history of LowPass/HighPass construction and setter calls with arbitrary f64 arguments (NaN and infinities included) the reported resonance is in [0,1] and the reported cutoff is at most 24000 Hz; setters leave the sample history untouched.",
  "every history of setter calls with any f64","NaN/infinity and histories","src/modifiers/lowpass.rs","src/modifiers/highpass.rs")
p("LowPass has unit gain at DC and is stable",
  "In exact arithmetic, for every cutoff in (0, 24000] and resonance in [0,1]: a constant input c is a fixed point c of the recurrence, and every bounded input sequence yields a bounded output sequence (explicit bound).",
  "every cutoff, resonance, input sequence","stability is a statement about infinite sequences","src/modifiers/lowpass.rs")
p("HighPass blocks DC and is stable",
  "For the f32 coefficients computed by reset the numerator coefficients cancel bit for bit (a3 = -a0, a1 = -a2) after any history of setter calls; in exact arithmetic a constant input therefore contributes exactly zero and the filter is stable for every cutoff in (0,24000] and resonance in [0,1].",
  "every cutoff, resonance, input","infinite sequences","src/modifiers/highpass.rs")
p("BandPass corner frequencies",
  "In exact arithmetic, for f > 0, q > 0: the reported corners (lo,hi) satisfy lo*hi = f^2, hi-lo = f/q, 0 < lo <= f <= hi; from_corners((a,b)) reports (min a b, max a b) for positive a <> b, and set_corner_frequencies agrees with from_corners.",
  "every centre frequency and quality, every corner pair","continuum","src/modifiers/bandpass.rs")
p("BandPass blocks DC and Nyquist and is stable",
  "In exact arithmetic constant and alternating inputs have a zero feed-forward term; for corners strictly between 0 and 24000 Hz every bounded input gives a bounded output.",
  "every input sequence","infinite sequences","src/modifiers/bandpass.rs")
p("Generic filter computes its difference equation",
  "For zeros/poles whose last entry has the largest index, for every input sequence: y[n] = sum b_i x[n-i] + sum a_j y[n-1-j] (f32 evaluation order as written), never panicking; if some index exceeds the last entry's index, the first process call panics.",
  "every coefficient list and input sequence","unbounded sequences","src/modifiers/generic.rs")
p("Envelope follower is non-negative and bounded",
  "For lower and upper frequencies in [0, 10000] Hz and every input sequence of finite samples bounded in magnitude by B = 2^k, 0 <= k <= 100, every f32 output is finite and in [0, 2B]; in exact arithmetic outputs never exceed the largest input magnitude so far.",
  "every input sequence","unbounded sequences","src/modifiers/envelope.rs")
p("Stateless modifiers",
  "Gain multiplies every sample by its gain, Passthrough returns every sample unchanged (bit-exact, NaN included), regardless of history; Zero always returns 0.",
  "every sample and history","histories","src/modifiers/gain.rs","src/modifiers/passthrough.rs","src/generators/zero.rs")
p("Cloned filters start from silence",
  "A clone of LowPass, HighPass, BandPass, Envelope, Generic or ADSR taken after any history behaves on all later inputs like a new filter with the same coefficients.",
  "every history before the clone, every later input","unbounded histories","src/modifiers/adsr.rs:Clone","src/modifiers/bandpass.rs:Clone","src/modifiers/delay.rs:Clone","src/modifiers/echo.rs:Clone","src/modifiers/envelope.rs:Clone","src/modifiers/gain.rs:Clone","src/modifiers/generic.rs:Clone","src/modifiers/highpass.rs:Clone","src/modifiers/lowpass.rs:Clone")
# ---------------- sounds
p("Blocks sum their primed inputs and reset",
  "For any generator, modifier and interactor: process feeds the modifier the f32 sum (in order, from 0) of everything primed since the last process, exactly once; afterwards the accumulated input is zero. It panics exactly when one of the three parts is shared.",
  "every generator/modifier/interactor behaviour, every history","polymorphic in user code","src/sounds/standard_block.rs")
p("SimpleSound is a series chain",
  "For any block behaviours, SimpleSound::process(x) equals output_gain times the left-to-right composition of the generator block on x*input_gain and each modifier block, every unshared block being processed exactly once.",
  "any number of modifiers, any block behaviour, any history","polymorphic, unbounded chain","src/sounds/simple_sound.rs")
p("Paused sounds are frozen",
  "For SimpleSound and ComplexSound and any history: while paused every process call returns 0 and changes nothing, so after un-pausing the sound continues exactly as if the paused calls had not happened.",
  "every history","histories","src/sounds/simple_sound.rs","src/sounds/complex_sound.rs")
p("Muting does not disturb a sound",
  "For any history, inserting or removing toggle_mute calls changes no internal state other than the mute flag: outputs while unmuted are identical, outputs while muted are 0.",
  "every history","histories","src/sounds/simple_sound.rs","src/sounds/complex_sound.rs")
p("Sound registration and gain accessors",
  "get_id returns the id of the latest register not followed by unregister; toggles are involutions; set gain then get gain returns the f32-rounded value.",
  "every history","histories","src/sounds/simple_sound.rs","src/sounds/complex_sound.rs")
p("Cloning a sound",
  "Relied on: a clone plays like the original. Actual: blocks are shared, so while a clone of a SimpleSound is alive both play the generator as silence and skip every modifier, and while a clone of a ComplexSound is alive process panics unless the sound is paused; dropping the clone restores everything.",
  "every sound and history","aliasing",  "src/sounds/simple_sound.rs","src/sounds/complex_sound.rs")
p("ComplexSound processing order is well formed",
  "After any sequence of add_block/add_connection/remove_connection ending in a connection change (cycles and self-loops included), computing the order terminates and yields a duplicate-free list that starts with the input gain, ends with the output gain and contains only existing blocks reachable from a block without inputs.",
  "every graph and edit history","all graphs including cyclic ones; termination","src/sounds/complex_sound.rs:process_order")
p("ComplexSound processes every connected block",
  "Relied on: every block fed by a block without inputs (such as the input gain) is processed. Actual: holds when every block has at most one incoming connection; fails in general - after a diamond (two blocks feeding a third) blocks further downstream are silently dropped from the order.",
  "every graph","all graphs","src/sounds/complex_sound.rs:process_order")
p("ComplexSound processes blocks after their inputs",
  "Relied on: a block runs after the blocks feeding it. Holds, for connections not entering the input gain nor leaving the output gain, in graphs where every block has at most one incoming connection and for every block fed by a block without inputs; fails for acyclic graphs with paths of different length between two blocks (an input arrives one call late).",
  "every graph","all graphs","src/sounds/complex_sound.rs:process_order")
p("A feedback connection to the input gain",
  "If every block has an incoming connection (e.g. a feedback edge into the input gain), the processing order is just [input gain, output gain] whatever the rest of the graph, so every other block is never processed.",
  "every graph without a source","all graphs","src/sounds/complex_sound.rs:process_order")
p("ComplexSound with no connections swallows its input",
  "Before any connection exists, n process calls return 0 and accumulate the n inputs in the input gain; the first process after a connection is made sees their f32 sum.",
  "every input sequence","histories","src/sounds/complex_sound.rs:process")
p("A linear ComplexSound equals a SimpleSound",
  "For any list of blocks b1..bn connected input->b1->...->bn->output, ComplexSound::process produces for every input history the value obtained by series composition (as SimpleSound does), each block primed once and processed once per call.",
  "every chain length, block behaviour and input history","unbounded chain, histories","src/sounds/complex_sound.rs:process")
# ---------------- channel
p("Channel ids are unique",
  "For every history of add_sound/remove_sound (below 2^64 additions) no id is issued twice, the sound's get_id is the issued id, and exactly the ids issued and not removed are registered.",
  "every history","histories","src/channels/standard_channel.rs")
p("Channel output length",
  "Relied on: process fills process_time worth of samples. Actual: for every history of set_process_time, set_gain, add_sound, remove_sound and process, get_output is empty - process never calls any sound.",
  "every history","histories; the output vector only ever has capacity","src/channels/standard_channel.rs:process")
p("Removing a sound unregisters it",
  "Relied on: after remove_sound the sound reports no id. Actual: the sound's id is left unchanged for every sound and history.",
  "every history","histories","src/channels/standard_channel.rs:remove_sound")
p("Adding a shared sound",
  "add_sound panics exactly when the given sound handle is shared; in particular adding the same handle twice without removing it in between always panics.",
  "every history","aliasing","src/channels/standard_channel.rs:add_sound")
# ---------------- debug
p("VecReader delivers its bytes once, in order",
  "For every payload and every sequence of buffer sizes, the concatenation of the bytes delivered is a prefix of the payload, each read returns min(buffer length, remaining), bytes beyond the count are untouched, and it never panics.",
  "every payload and read schedule","all read schedules","src/debug.rs:VecReader")
p("float_equal is a tolerance test",
  "For all f32 inputs float_equal(a,b,e,abs) is true iff |a-b| < e in f32; false whenever NaN is involved; symmetric in a and b.",
  "every triple of floats","all floats","src/debug.rs:float_equal")
p("bin2str preserves the bytes",
  "For every byte string, the table text produced by the bin2str utility, read as comma-separated decimal numbers with whitespace ignored, is exactly that byte string.",
  "every byte string","unbounded input, line wrapping","utility/bin2str/src/main.rs")
# ---------------- added while modelling
p("Loop seam interpolation stays in the loop",
  "Relied on: between the last sample of the loop and its wrap the output is interpolated towards the sample at loop_start. Actual: if the loop ends at the end of the track and loop_start >= 1 the right-hand sample is the one BEFORE the loop (loop_start - 1), for every position in the last sample interval; if the loop ends inside the track it is the sample AFTER the loop (loop_end). So samples outside the loop leak into a loop of zeros.",
  "every looping resampler and every position in the seam","needs every fractional position and every loop",RS+":MonoResampler::process")
p("A written WAV file plays back its first track",
  "For every non-empty list of tracks accepted by write_wav (at most 65535 tracks of at most 2^24 samples), MonoWav::from_source on the written file followed by any number of process calls yields the first track's samples, encoded and decoded at the chosen bit depth, in order, then zeros. A file declaring zero channels makes from_source panic.",
  "every track list, bit depth, clip flag and number of calls","unbounded tracks and calls through encode, decode and f32 position arithmetic","src/generators/mono_wav.rs:MonoWav::from_source",UT+":write_wav",UT+":read_wav",RS+":MonoResampler::process")
p("The sine generator is a sine",
  "For every frequency in [0,48000] and every n, sample n of a fresh Sine is within 2^-9 + n*2^-48 of sin(2*pi*f*n/48000); the error of a single sample is at most 2^-21 whenever the table phase is non-negative, but a phase that wrapped into [-1,0) reads table entry 0 twice and yields exactly 0 (assuming a sin accurate to 2^-50).",
  "every frequency and sample number","unbounded time; all fractional phases; the early wrap at 4799 hits only some frequencies","src/generators/sine.rs:Sine::process","src/generators/sine.rs:WAVETABLE")
p("ADSR decay completes",
  "Relied on: after the attack the gain decays to the sustain level. Holds when the decay step is above 2^-25 per sample (within 2^26 calls; from 2^-24 on within 2/step calls). Fails for smaller steps, for example sustain -1/8 dB with a 12 s decay: the gain stays exactly 1 forever.",
  "every parameter set, history and number of calls","unbounded calls; f32 absorption of small steps","src/modifiers/adsr.rs:ADSR::process")
p("bin2str line width", "For every byte string no line of the table text produced by the bin2str utility is longer than 80 characters.",
  "every byte string", "Whether a line can overflow depends on the widths of all numbers on it and on every earlier wrap; tests see a few files.",
  "utility/bin2str/src/main.rs:byte2char")
p("LowPass and HighPass stay bounded in f32 from 600 Hz on",
  "For every cutoff whose clamped value is at least 600 Hz, every resonance argument (clamped, NaN included) and every finite input sequence bounded by X (2^-100 <= X <= 2^90), every output of a fresh LowPass in the program's f32 arithmetic is finite and at most (92000/fc + 6)*X, and of a fresh HighPass at most (368000/fc + 26)*X (cos accurate to 2^-50, powf with exponents 2 and 3 to a relative 2^-50).",
  "every cutoff from 600 Hz, resonance, amplitude, input sequence and length","unbounded feedback with rounding in every coefficient and every operation; tests see a few seconds of a few signals","src/modifiers/lowpass.rs:LowPass::process","src/modifiers/highpass.rs:HighPass::process")
p("Low cutoffs are numerically unstable",
  "Relied on: the filters are stable for every admissible cutoff. Actual: at 20 Hz with resonance 1, a LowPass (and likewise a HighPass) fed the constant 1.0 reaches NaN after finitely many samples and every later output is NaN, whatever is fed: rounding the coefficients to f32 moves a pole outside the unit circle.",
  "every later input sequence, any accurate libm","takes about 32,000 samples to show and then depends on every rounding","src/modifiers/lowpass.rs:LowPass::reset","src/modifiers/highpass.rs:HighPass::reset")
p("What a HighPass leaves of a constant",
  "For every HighPass with cutoff at least 2^-10 Hz and every constant c with 2^-100 <= |c| <= 2^100: once the input history is c, each output is the feedback of the last three outputs plus one and the same f32 number d with |d| <= 3*2^-24*|c|. Relied on but false: that the constant is removed; at 130 Hz, resonance 0, constant 1.0 the output settles exactly at a constant above 0.01 and stays there forever.",
  "every cutoff, resonance, constant and output history; every number of further samples","the fixed point appears after 15,275 samples; the residue is a statement about all floats","src/modifiers/highpass.rs:HighPass::process","src/modifiers/highpass.rs:HighPass::reset")
p("The filters compute their difference equations",
  "For every fresh (or cloned) LowPass, HighPass or BandPass, every input sequence and every position n, output n is, operation for operation in the program's arithmetic, the linear combination of inputs n..n-3 and outputs n-1..n-3 (n-2 for BandPass) with the stored coefficients, samples before the start being 0. In particular a constant or a signal of period two enters a BandPass only through its first two samples.",
  "every coefficient set, input sequence and position","an error in shifting the history shows only in some signals and positions","src/modifiers/lowpass.rs:LowPass::process","src/modifiers/highpass.rs:HighPass::process","src/modifiers/bandpass.rs:BandPass::process")
p("BandPass stays bounded in the program's arithmetic",
  "For every central frequency and quality whose corners (get_corner_frequencies) lie between 20 Hz and 20 kHz, and every finite input sequence bounded by X (2^-100 <= X <= 2^90), every output of a fresh BandPass is finite and at most (34000/lower corner + 3)*X (tan accurate to a relative 2^-40). Likewise for a filter built with from_corners from any two corners between 20.001 and 19999.999 Hz at least 2^-20 apart, with 34001 over the smaller corner asked for.",
  "every corner pair in the audible range, amplitude, input sequence and length","unbounded feedback with rounding of coefficients and outputs","src/modifiers/bandpass.rs:BandPass::process","src/modifiers/bandpass.rs:BandPass::reset")
p("BandPass parameters and corners in the program's arithmetic",
  "Setting the central frequency or quality of a BandPass reports exactly the value set, keeps the other parameter and the sample history, and yields the coefficients of a new filter. For every frequency in [2^-40,2^40] and quality in [2^-60,2^60] the reported corners are ordered and within 2^-27 of the upper corner of the exact ones. For any two corners in [2^-10,2^20] at least 2^-20 apart, given in either order to from_corners or set_corner_frequencies, the reported corners are these two in ascending order up to 2^-27 of the larger.",
  "every frequency, quality, pair of corners and prior filter state","the round trip passes through a square root, a quotient and a cancellation for each of 2^128 pairs","src/modifiers/bandpass.rs:BandPass::from_corners","src/modifiers/bandpass.rs:BandPass::set_corner_frequencies","src/modifiers/bandpass.rs:BandPass::get_corner_frequencies")
p("What the channel's mixing loop computes",
  "For every buffer content, every set of distinct solely-owned registered sounds and every gain, process replaces sample i by (old sample i + the i-th sample of each sound) * gain, advances each sound by one sample per buffer entry and changes nothing else (so old contents leak into the mix unless the buffer was cleared). If the buffer is nonempty and any registered sound is also held by someone else it panics. The gain is the last one set, rounded to f32, after every history.",
  "every sample format, sound type, buffer, set of sounds, gain and history","quantifies over all sounds and buffers, and the channel's own API never produces a nonempty buffer (see 'Channel output length'), so no test through the API reaches the loop","src/channels/standard_channel.rs:StandardChannel::process","src/channels/standard_channel.rs:StandardChannel::set_gain")
p("Cloning a channel",
  "A clone of a StandardChannel has the same buffer, gain, ids and counter and shares (does not copy) the registered sounds: each gains one handle per entry and keeps its state. Hence with a nonempty buffer neither the original nor the clone can process while both exist, and both issue the same id next: ids are unique per channel, not across clones.",
  "every channel, heap and set of sounds","reference counts of all sounds over all channel states","src/channels/standard_channel.rs:StandardChannel")
p("LowPass and HighPass have the frequency response of their prototype, in exact arithmetic",
  "Computed without rounding, a LowPass or HighPass fed with a sine of any frequency, amplitude and phase settles (geometrically, from any earlier state) to the same sine multiplied by 1/(s^3+ks^2+ks+1) or s^3/(s^3+ks^2+ks+1) at s = (1-e^(-jw))/(2 pi fc/48000). Hence unit gain at DC for the low pass and none for the high pass, the documented 18 dB/octave beyond twice the cutoff, never more than Butterworth's gain without resonance, and a resonance peak that grows without bound as the cutoff falls. The low pass is always more than 3 dB down at its cutoff, so it is not an exact Butterworth filter.",
  "for every cutoff in (0, 24000], resonance in [0, 1], frequency, amplitude, phase and initial state",
  "a test measures a few frequencies after a finite settling time; the claim is about every frequency and the limit",
  "src/modifiers/lowpass.rs:LowPass::reset","src/modifiers/lowpass.rs:LowPass::process","src/modifiers/highpass.rs:HighPass::reset","src/modifiers/highpass.rs:HighPass::process")
p("BandPass has the frequency response of a first-order pair; its gain at the centre is not one and its corners are not 3 dB down",
  "Computed without rounding, a BandPass with corners lo < hi below 24 kHz settles on every sine to the sine multiplied by its transfer function, whose power gain at v Hz is h^2 T^2/((T^2+h^2)(T^2+l^2)) with h, l, T the tangents of pi hi/48000, pi lo/48000, pi v/48000. The gain is largest exactly where T^2 = h l, where it is (h/(h+l))^2 < 1: a narrow band loses half its amplitude. The two corners have equal gain, always more than half the peak power. DC and the Nyquist frequency are blocked.",
  "for every frequency, quality, input sine and initial state with the upper corner below 24 kHz",
  "a test measures a few frequencies of a few filters; the claim is about all of them and the limit",
  "src/modifiers/bandpass.rs:BandPass::reset","src/modifiers/bandpass.rs:BandPass::process","src/modifiers/bandpass.rs:BandPass::get_corner_frequencies")
p("The filters in the program's arithmetic follow the exact filters",
  "A fresh BandPass with audible corners, or a fresh LowPass or HighPass with (clamped) cutoff at least 600 Hz, fed with any finite samples bounded by X (2^-100 <= X <= 2^90), produces at every position a finite sample whose distance from the output of the same filter computed without rounding is at most a constant of the filter times X, independent of the length of the input. The constant is explicit (bp_drift, lp_drift, hp_drift): below 1/1000 for a band pass from 1 to 4 kHz, 1/2000 for a low pass and 1/250 for a high pass at 12 kHz.",
  "for every parameter in range, every input sequence, its length and amplitude",
  "feedback accumulates rounding errors over unboundedly many samples; a test compares a few seconds of a few signals",
  "src/modifiers/lowpass.rs:LowPass::process","src/modifiers/highpass.rs:HighPass::process","src/modifiers/bandpass.rs:BandPass::process")
p("Tones through the filters as the program runs them",
  "Feeding a fresh LowPass, HighPass (cutoff at least 600 Hz) or BandPass (audible corners), in the program's arithmetic, with the samples of a sine of any frequency, amplitude and phase (each sample within eps of the sine), yields finite outputs that tend geometrically to the sine multiplied by the filter's transfer function, up to an explicit constant times the amplitude (as in the property before) plus another times eps.",
  "for every parameter in range, every frequency, amplitude, phase, error of the input samples and position",
  "the claim is about the limit and about every frequency at once",
  "src/modifiers/lowpass.rs:LowPass::process","src/modifiers/highpass.rs:HighPass::process","src/modifiers/bandpass.rs:BandPass::process")
p("Decibel conversions in f64",
  "With a powf accurate to a relative 2^-40 and a log10 accurate to a relative 2^-40 plus 2^-50: db_to_linear of every finite x in [-2000, 2000] is within a relative 2^-39 of 10^(x/20); linear_to_db of every positive finite g is within a relative 2^-39 plus 2^-44 of 20 log10 g; converting back and forth returns x within a relative 2^-39 plus 2^-33, and g in [2^-190, 2^190] within a relative 2^-30. normalize brings the peak of every track that is not constant within a relative 2^-21 of 10^(db/20), for db in [-300, 300].",
  "for every f64 in range, every accurate libm and every track of at most 2^24 samples",
  "2^64 arguments, and a claim about every conforming libm rather than the one on the test machine",
  "src/utils/mod.rs:linear_to_db","src/utils/mod.rs:db_to_linear","src/utils/mod.rs:normalize")
p("The pan law, position by position",
  "For every finite sample up to 2^100 and every position in [-1, 1], panning to Stereo attenuates each channel, up to a relative 2^-22 (plus the smallest subnormal), by a level linear in the position: the left channel from -3 dB at -1 to -120 dB at 0, then from 0 dB just right of the centre to -3 dB at 1; the right channel from 0 dB at -1 towards -3 dB at the centre, then to -120 dB at 1. Relied on but false: that moving right makes the right channel louder. Within either half, moving right makes both channels quieter.",
  "for every sample, position and accurate powf",
  "a test checks a few positions; the discontinuity and the direction are statements about all of them",
  "src/sample_format/stereo.rs:to_sample_format")

p("Triangle and sawtooth are accurate at every position",
  "After n samples a Triangle of any frequency up to 24 kHz (either sign) returns the exact triangle wave (2/pi asin sin(2 pi f n/48000)) within 2^-25 + n 2^-50, and a Sawtooth of frequency in [0, 24000] the exact sawtooth within 2^-25 + n 2^-51 whenever the exact value is further than n 2^-51 from the jump. Relied on but false: that setting a Triangle's frequency to the one it already has changes nothing; every triangle reaches a state where that turns the slope around.",
  "for every frequency in range and every position",
  "phase errors accumulate over unboundedly many samples and the slope flag matters only after the first turning point",
  "src/generators/triangle.rs:Triangle::process","src/generators/triangle.rs:set_frequency","src/generators/sawtooth.rs:Sawtooth::process")

p("Pitch and duration of a track played at any speed",
  "A track of at most 2^k <= 2^24 samples, of any rate in [1, 2^20] Hz, played without a loop at any speed in [2^-20, 2^20]: call number i returns the track linearly interpolated (within 2^-22 of full scale) at a position within i (c 2^-22 + 2^(k-25)) of i c, where c = rate speed/48000, and silence once that position is past the end by more than this drift. Relied on but false: that every track ends (one longer than 2^m + 1 samples whose step c lies between 2^(m-25) and 2^(m-24) repeats sample 2^m for ever: a CD track at half speed, after 190 seconds of music), and that the output is always made of the two neighbouring samples (at 2^k - 2^(k-24) the right neighbour is skipped).",
  "for every track, rate, speed and call number",
  "the position drifts over unboundedly many calls; the stuck playback shows only after minutes, the misread at single positions",
  "src/utils/mono_resampler.rs:MonoResampler::process","src/utils/mono_resampler.rs:MonoResampler::new","src/utils/mono_resampler.rs:set_playback_speed")

p("The envelope follows the signal",
  "After any bounded history, once the magnitude of the input stays between lo and hi, so does the envelope, up to what remains of the past and the rounding: output i is at least lo - a^(i+1) lo - Y 2^-19/tu and at most hi + b^(i+1) 2 Y + Y 2^-19/td, where tu and td are within 2^-19 of tan(pi f/48000) for the upper and the lower frequency (1 to 10000 Hz), a = (1-tu)/(1+tu), b = (1-td)/(1+td) and Y bounds the signal. In exact arithmetic the shortfall and the excess shrink by these factors at every sample, and a constant is approached as |x| + a^(i+1) (y - |x|). Relied on but false: that the envelope never falls while the input is above it (after a zero input it falls whenever the input is less than twice the envelope).",
  "for every pair of frequencies in range, every history and every bounded signal",
  "tracking is a statement about all later samples of all signals, with rounding errors fed back at every one",
  "src/modifiers/envelope.rs:Envelope::new","src/modifiers/envelope.rs:Envelope::process")

p("Echo is a feedback comb filter, and when it dies out",
  "With a gain of magnitude below 1 and inputs for which the outputs stay within B (C45), output k of an Echo is the sum over j of g^j x(k - j n), n the delay in samples, within 2^-22 B/(1-|g|) at every k. With a gain of magnitude at most 1/2, whatever finite samples are in flight, after 277 repetitions of silence the output is zero for good. Relied on but false: that an echo with a gain below one dies out; with a gain of magnitude above 1/2 (and at most 1) no nonzero sample in flight ever becomes zero.",
  "for every delay, gain, history and number of samples",
  "the tail is unbounded in time and the surviving subnormals are inaudible in any finite listening test but slow every later sample",
  "src/modifiers/echo.rs:Echo::process")

p("The ADSR follows the envelope that was asked for",
  "With positive times, the gain after n calls of the attack is n/A (A: attack time in samples) within n (2^-25 + 2^-22/A), and the attack ends when that reaches 1 up to the same error; the decay falls from 1 to the sustain level L over the decay time D in samples within n (2^-25 + 2^-22/D) and then holds L to single precision; a release at any moment falls from the gain it finds at the rate of L per release time, within an error that shrinks with the binade of the gain. Relied on but false: that the release takes the release time; released at full gain with L <= 1/2 the gain is still at least 3/8 when the release time is over.",
  "for every attack, decay and release time, sustain level, history of calls and number of samples, and every libm whose powers of ten are accurate",
  "a linear ramp accumulated in single precision drifts with the number of samples; a test checks a few durations",
  "src/modifiers/adsr.rs:ADSR::new", "src/modifiers/adsr.rs:ADSR::process", "src/modifiers/adsr.rs:ADSR::release")

p("A block made of library parts plays its generator, filters its input, or multiplies the two",
  "Whatever it is primed with, a StandardBlock from a generator outputs exactly the samples of that generator; one from a modifier outputs the modifier applied to the sum of the inputs of each call; one with the default interactor outputs the product of the two. Both parts advance once per call independently of each other, so that swapping one through get_g_mut or get_m_mut after any history leaves the other where it was. A SimpleSound of one block is that block with the two gains.",
  "for every library generator and modifier and every sequence of calls with any number of inputs each",
  "the statement relates unboundedly long runs of a composite to runs of its parts, for all parts",
  "src/sounds/standard_block.rs:StandardBlock::from_generator", "src/sounds/standard_block.rs:StandardBlock::from_modifier", "src/sounds/standard_block.rs:default_interactor", "src/sounds/standard_block.rs:get_m_mut")

p("Notes end, and voices are heard (refuted)",
  "Relied on but false: that a note shaped by an ADSR inside a sound can be ended (no history of calls on a SimpleSound or ComplexSound ever releases an ADSR held by one of its blocks, and unless it was asked to sustain below -600 dB its gain stays above a positive constant for ever), and that a generator and an ADSR combined by the default interactor in one block are heard (with the zero input a channel gives to its sounds, such a sound is silent for ever; the block needs the constant input 1 to be generator times envelope).",
  "for every ADSR, generator, history of calls and heap of blocks",
  "the impossibility is over all histories of calls on sounds; silence has to be shown for all samples to come",
  "src/modifiers/adsr.rs:ADSR::release", "src/sounds/standard_block.rs:StandardBlock::process", "src/channels/standard_channel.rs:StandardChannel::process")

p("A sound made of library parts never panics",
  "In a heap whose blocks are StandardBlocks made of library parts, constructed with arguments for which the parts themselves are safe (sine frequencies between 0 and 48000 Hz, unlooped tracks not longer than 2^24 samples whose length is not 2^k + 1, echoes of at least one sample, generic filters whose longest delay comes last), no history of calls on a SimpleSound panics, shared blocks or not, nor any history on a ComplexSound in which blocks are moved in and only existing blocks are connected.",
  "for every heap of such blocks, every sound and every history of calls",
  "panic freedom over all histories of all compositions of parts",
  "src/sounds/simple_sound.rs:SimpleSound::process", "src/sounds/complex_sound.rs:ComplexSound::process", "src/sounds/standard_block.rs:StandardBlock::process")

p("A tone through a chain of linear modifiers in a sound",
  "A SimpleSound is its blocks one after the other, each given the whole output of the one before. A Sine of f Hz followed by any chain of gains, delays, echoes (gain below 1), Generic filters (feedback coefficients of sum below 1), low and high passes (cutoff of 600 Hz or more) and band passes (corners from 20 to 20000 Hz), in a SimpleSound or in a ComplexSound connected in a row, never panics and outputs the sine of f Hz whose complex amplitude is the product of the transfer functions of the parts, up to a transient that dies out geometrically and a stated rounding error that stays; levels multiply and the order of the modifiers is immaterial to the tone.",
  "for every frequency of 0 to 48000 Hz, every chain of any length whose overall gain stays below 2^90, every input signal and every number of samples",
  "it is a limit statement with an error bound over all chains, all lengths and all times, composed from the transfer functions of all parts",
  "src/sounds/simple_sound.rs:SimpleSound::process", "src/sounds/complex_sound.rs:ComplexSound::process", "src/sounds/standard_block.rs:StandardBlock::process", "src/generators/sine.rs:Sine::process", "src/modifiers/echo.rs:Echo::process", "src/modifiers/delay.rs:Delay::process", "src/modifiers/lowpass.rs:LowPass::process")

p("Dataflow of a ComplexSound on any graph",
  "In a ComplexSound with any blocks and any connections (cycles included) every block in the processing order runs exactly once per call on what arrives at it: this call's output of the connected blocks processed before it, and the previous call's output of the connected blocks processed after it (or of itself); the sound puts out the output of the output block. With one input per block there is no delay anywhere; parallel one-block branches are mixed within the same call and scaled by the output gain. Longer branches meeting at the output may be cut (refuted).",
  "for all block types, edit histories, reachable states, processing orders and input histories in which no block panics",
  "The delay of an edge depends on the computed order; no finite set of graphs and inputs covers all graphs and block behaviours.",
  "src/sounds/complex_sound.rs:111-180", "src/sounds/complex_sound.rs:206-234")

p("A rack of modifiers and a chord of sines in a ComplexSound",
  "If every block added to a ComplexSound is connected between its input gain and its output gain, then (a) linear modifiers (gain, delay, echo, Generic, low-, high- and band-pass) side by side turn a tone into the tone whose complex amplitude is the sum of the parts' amplitudes, up to stated rounding errors and an error that dies out; a signal beside its own delay is a comb filter whose notches are exactly where the delay is half a period; (b) Sine generators side by side put out the sum of the sines, from the first sample on, whatever is fed in, within n(2^-9 + i 2^-48) + n^2 2^-23 at sample i.",
  "for all numbers of branches, all parts and frequencies in range, all orders in which blocks were added and connected, all input signals, all lengths",
  "the statement is over all racks, all frequencies and unboundedly long signals, and the error bound has to hold for every order in which the additions are done",
  "src/sounds/complex_sound.rs:111-180", "src/sounds/complex_sound.rs:206-234", "src/sounds/standard_block.rs:186-203", "src/generators/sine.rs:48-56", "src/modifiers/delay.rs:35-41")

p("A recorded tone played at another speed is the tone of the multiplied pitch",
  "If a track records a smooth curve at its integer times up to eps, then playing it (MonoResampler/MonoWav without a loop, any source rate, any playback speed) puts out, at call i, the curve at time i * rate * speed / 48000, up to eps, the sag of a chord (curvature/8), slope times the drift of the f32 position, and f32 rounding; at the positions just below a power of two the error may be one sample-to-sample step larger. In particular a recorded tone of F Hz is heard as the tone of F * speed Hz, whatever the rate of the recording, and the library's own Sine recorded and played at a speed is the sine of the multiplied frequency.",
  "for all curves with bounded slope and curvature, all tracks of up to 2^24 samples that record them, all rates and speeds in 1..2^20 and 2^-20..2^20 and all calls before the end of the track",
  "it quantifies over all curves, tones, rates, speeds and unboundedly many calls, and needs real analysis for the interpolation error",
  "src/utils/mono_resampler.rs:34-57", "src/utils/mono_resampler.rs:60-86", "src/generators/mono_wav.rs:30-51", "src/generators/sine.rs:48-56")

p("A WAV file keeps its pitch while it plays",
  "Relied on: a track sounds at the same pitch from beginning to end. In fact the position is an f32, so between the positions 2^j and 2^(j+1) a resampler advances by exactly the multiple of 2^(j-23) nearest to its step (of two equally near ones the even one, after at most one call). Every track that is long enough comes to that stretch and is heard there at the rounded speed. A tone of F Hz in a 44.1 kHz file played at normal speed sounds at 20/21 F between the file's 2^20th and 2^21st sample (about 24 s to 48 s) and at 160/147 F from the 2^21st to the 2^22nd.",
  "for all tracks, rates, speeds and stretches between powers of two, all recorded curves and tones, all calls within the stretch",
  "the effect sets in after a million samples and depends on the rounding of every single addition; the statement is for all tracks and all tones",
  "src/utils/mono_resampler.rs:10-21", "src/utils/mono_resampler.rs:60-86", "src/generators/mono_wav.rs:30-51")

p("A sound rendered to a file comes back as it was",
  "Tracks of finite samples within [-1, 1] (any finite samples if clipping is asked for) written with write_wav at 8, 16 or 24 bits and read with read_wav come back as the same number of tracks of the same lengths whose samples are within [-1, 1] and differ from the (clipped) originals by at most 1/128, 1/65000 and 1/8000000. A track that records a curve still records it after the detour, so a Sine rendered, written, opened as a MonoWav and played at any speed is the sine of the multiplied frequency up to the stated errors, without panics.",
  "for all tracks, lengths, channel counts up to 65535, bit depths, clip flags, curves, frequencies, playback speeds and numbers of calls",
  "it composes encoding, interleaving, de-interleaving, decoding, resampling and the sine's accuracy for all samples and unbounded lengths; the 8-bit bound is reached only at one sample value",
  "src/utils/mod.rs:109-138", "src/utils/mod.rs:175-250", "src/sample_format/mod.rs:100-155", "src/generators/mono_wav.rs:16-51", "src/utils/mono_resampler.rs:60-86")

p("Linear modifiers superpose, commute, do not depend on when they start, and convolve",
  "A chain of the library's linear modifiers (pass-through, gain, delay, echo, Generic with feedback coefficients of sum below 1, LowPass and HighPass from 600 Hz on, BandPass), as the program computes it, puts out the convolution of its input with the chain's impulse response, up to the stated rounding errors; so a mix of two signals comes out as the mix of the two outputs, and the order of the modifiers does not matter, up to those errors. A fresh chain that is fed silence first plays silence and then exactly what it would have played at once, up to the sign of zeros, for any samples including infinities and NaNs. The chain's frequency response is the Fourier series of its impulse response, which is absolutely summable, with the product of the gains as a bound for the largest output.",
  "for all chains of modifiers in range of any length, all finite input signals of any amplitude up to the stated one and any length, all mixing factors, all orders of the modifiers, all lengths of the silence, all frequencies",
  "it compares whole runs on different inputs and of different chains, for all signals, and relates time to frequency by an infinite series",
  "src/modifiers/lowpass.rs:82-93", "src/modifiers/highpass.rs:110-122", "src/modifiers/bandpass.rs:134-145", "src/modifiers/echo.rs:32-37", "src/modifiers/delay.rs:35-39", "src/modifiers/gain.rs:22-24", "src/sounds/simple_sound.rs:117-131")

p("A Square of any frequency is the square wave",
  "A new Square of any frequency between 2^-20 and 24000 Hz, whether or not its period is a whole number of samples, puts out exactly the square wave of that frequency (1 in the first half of every period, -1 in the second) at every sample that is further than n * 2^-50 periods from an edge, where n is the number of the sample: the rounding of the stored half period and of the phase never adds up to more.",
  "for every frequency in range and every sample of an unboundedly long run",
  "the frequencies whose half period is not a whole number of samples are almost all of them, and the drift has to be bounded over all wraps of the phase",
  "src/generators/square.rs:14-45")

p("Generators whose frequency is changed while they run",
  "Whatever the sequence of set_frequency calls between samples (sweeps, vibrato, melodies), a Sine follows the sine of the accumulated phase, that is of the sum of f_i / 48000 over the frequencies in force at the samples so far, without clicks, within 2^-9 + i 2^-48, and a Sawtooth follows the sawtooth of the accumulated phase within 2^-25 + i 2^-51 away from its jump. Relied on but false for the Triangle: setting its frequency before every sample, even to the value it already has, leaves it stuck within 4f/48000 of the top for ever once a quarter of a period has passed (a constant instead of a tone); for the Square see the refutation of its phase on frequency changes.",
  "for every history of frequency changes and samples with frequencies in range, of any length",
  "it is a statement about all modulation histories; tests sample a few constant frequencies",
  "src/generators/sine.rs:38-67", "src/generators/sawtooth.rs:23-43", "src/generators/triangle.rs:21-47", "src/generators/mod.rs:FreqMod")

p("Branches of a ComplexSound are mixed in step",
  "If the connections of a ComplexSound fork but only meet again at the output gain, and all but one of the paths from the input gain to the output gain are within one block of the longest, then process_order processes every block and each after the block that feeds it, whatever the order in which the connections were made; so no connection delays anything, and each call returns the sum over the paths of what the blocks of the path, one after the other, make of the input in that call, between the two gains. Relied on but false beyond that: with paths of 0, 1 and 3 blocks, connected in a certain order, the last block of the longest path is never processed.",
  "for all graphs of this shape with any number of blocks, paths and forks, all orders of the edits that build them, all user block types, all inputs and numbers of calls",
  "the outcome depends on the order in which connections are made and on the lengths of all branches together; a test sees a handful of the unboundedly many graphs",
  "src/sounds/complex_sound.rs:process_order", "src/sounds/complex_sound.rs:process", "src/sounds/complex_sound.rs:add_connection")

p("Effects on parallel branches of a ComplexSound add up",
  "With linear modifiers as the blocks of such branches a tone comes out as a tone whose complex amplitude is the sum over the paths of the products of the parts' responses along the path, up to the parts' stated errors, the rounding of the additions and an error that dies out exponentially. A signal beside its own delay of n samples at gain a is a comb filter of power response 1 + 2 a cos(n omega) + a^2.",
  "for all branching graphs of this shape, all linear modifiers in range, all frequencies, amplitudes in range and unboundedly long inputs",
  "it is a statement about all frequencies and all graphs, in the limit of long inputs, with bounds for the accumulated rounding",
  "src/sounds/complex_sound.rs:process", "src/modifiers/delay.rs:35-39", "src/modifiers/gain.rs:22-24", "src/modifiers/echo.rs:32-37", "src/modifiers/lowpass.rs:82-93")

p("Feedback connections of a ComplexSound",
  "Connections that lead back to a block upstream (one through which every way from a source to the start of the connection passes) leave the order of processing as it is without them. If the remaining connections are branches in step, every block is processed, after the blocks that feed it forward and before those that feed back to it, so that in each call it gets this call's outputs of the former and exactly the previous call's outputs of the latter. Hence a loop around a Delay of d samples and a Gain is an Echo of d + 1 samples, up to the signs of zeros (a loop around a Delay meant to repeat every d samples repeats every d + 1). Relied on but false for the shortest loop: a block connected to itself can cut the end off the chain behind it, depending on whether that connection is made before or after the forward one.",
  "for all graphs with any number of blocks, branches and feedback connections, all orders of the edits that build them, all user block types, all inputs and numbers of calls; all delays and gains for the loop",
  "whether a cyclic graph is ordered properly depends on the order of all edits; a test sees a handful of graphs and a few calls",
  "src/sounds/complex_sound.rs:process_order", "src/sounds/complex_sound.rs:process", "src/sounds/complex_sound.rs:add_connection", "src/modifiers/echo.rs:32-37", "src/modifiers/delay.rs:35-39")

p("A looped recording of whole periods is an endless tone",
  "A MonoResampler whose track records a smooth curve that repeats after the length of the loop, the loop ending before the last sample, returns that curve at the speeded-up time in every call, without panic and without click at the seam, up to the recording error, the sag of the chords and a drift proportional to the number of calls; a tone with a whole number of periods in the loop is heard as a tone of its frequency times the speed. When the step is a multiple of the spacing of the floats at the end of the loop there is no drift, and the bound is the same after any time. Relied on but false for a loop that ends with the track: at the seam it interpolates towards the sample before the loop.",
  "for all tracks up to 2^23 samples, loops, rates, speeds up to the length of the loop less one, all smooth curves of the loop's period and unboundedly many calls",
  "it is about all times, an endless run, and every position relative to the seam; a test plays a few loops for a short while",
  "src/utils/mono_resampler.rs:60-86", "src/utils/mono_resampler.rs:34-57")

p("A note is its waveform times the envelope asked for",
  "The gain of ADSR::new(a, d, s, r) follows, at every one of any number of samples, the piecewise linear curve that rises from 0 to 1 in the attack time, falls to the sustain level in the decay time and stays there, and, once released at any moment, falls from where it is at the rate of the sustain level per release time to 0, where it stays; the error is bounded by a constant that depends only on the three times and the level, not on how long the note is held. So a Sine followed by an ADSR in a SimpleSound is the sine times this curve, whatever is fed in.",
  "for all attack times up to 87 s, all decay and release times, sustain levels, moments of release, lengths of notes, inputs, frequencies up to 48 kHz",
  "phases follow one another and each inherits the rounding of the one before; tests look at a few times and a few samples",
  "src/modifiers/adsr.rs:25-57", "src/modifiers/adsr.rs:61-90", "src/generators/sine.rs:38-67", "src/sounds/simple_sound.rs:process")

p("Generic filters with little feedback play their difference equation",
  "The difference equation y[n] = sum z_i x[n-i] + sum p_j y[n-1-j] of a Generic filter has exactly one solution for every input. If the magnitudes of the feedback coefficients p_j sum up to less than 1 (by a margin for rounding), the filter never panics, its output stays finite and below weight(z) / (1 - weight(p)) times the input's amplitude plus rounding, and it is the solution up to a rounding error that does not grow with time; the solution is the convolution with its impulse response, and a tone comes out as the tone times sum z_i e^(-j om i) / (1 - sum p_j e^(-j om (j+1))). Relied on but false at a sum of exactly 1: the filter then may grow without bound (it counts to 2^24).",
  "for all lists of feed-forward and feedback coefficients of any length with feed-forward weight up to 4096, all finite inputs of amplitude up to 2^90, unboundedly many samples, all frequencies",
  "rounding errors are fed back for ever, so the statement is about unboundedly long runs; and it is about all coefficient lists and all frequencies",
  "src/modifiers/generic.rs:30-59", "src/modifiers/generic.rs:63-80")

p("Linear modifiers in a feedback loop of a ComplexSound",
  "Linear modifiers connected in a row, the last one back to the first, heard after any one of them: whatever the order of adding and connecting, the signal u that goes round satisfies u[n] = x[n] + (h * u)[n-1], h being the impulse response of the row, x the input after the input gain: a round takes one sample more than the blocks themselves. The equation has exactly one solution. If the gains of the parts multiply to less than 1 (by a margin for rounding), no sample overflows, the sound puts out the solution convolved with the modifiers up to the tap, up to rounding errors bounded independently of the number of rounds, and a tone comes out as a tone of complex amplitude H_tap w / (1 - e^(-j om) H_row), plus an error that dies out. A delay of D samples in a loop therefore resonates at multiples of 1/(D+1) of the sample rate. A loop of gain 1 adds up its input without end.",
  "for all rows of at least two linear modifiers (gain, delay, echo, low pass, high pass, band pass, Generic), all taps, orders of edits, gains of the sound, frequencies, inputs within the room and unboundedly many samples",
  "every rounding error goes round for ever, and the order of processing decides where the sample of delay is; a test sees a few graphs and a short run",
  "src/sounds/complex_sound.rs:process_order", "src/sounds/complex_sound.rs:process", "src/sounds/complex_sound.rs:add_connection", "src/modifiers/delay.rs:35-39", "src/modifiers/gain.rs:21-25")

p("Filters whose parameters are changed while they run",
  "Setting the cutoff or resonance of a LowPass or HighPass, or the frequency, quality or corners of a BandPass, in the middle of a sound keeps the remembered samples, so there is no jump to silence: from the very next sample on the filter follows the exact filter with the new parameters started from what it remembers, within a fixed fraction of the amplitude, and in the end it follows the exact filter that was at rest when the parameters were changed; so a tone comes out with the gain and phase of the new setting, whatever was heard before. Relied on but false if parameters are changed all the time: a BandPass whose corners are set before every sample, alternately to 1000/2000 Hz and 19800/19900 Hz, each of which alone keeps every output below 38 times the input, turns a single click into an infinity or NaN.",
  "for all states of the filter with finite remembered samples, all new parameters in the range of C93 (cutoff 600 Hz to 24 kHz, corners 20 Hz to 20 kHz), all inputs loud enough to allow for the remembered samples, unboundedly many samples, all frequencies; the refutation for every libm with an accurate tan",
  "what is remembered at the moment of the change can be anything, and its effect is over only in the limit; the blow-up takes hundreds of samples and a particular pair of settings",
  "src/modifiers/lowpass.rs:47-65", "src/modifiers/highpass.rs:71-89", "src/modifiers/bandpass.rs:67-113", "src/modifiers/bandpass.rs:134-145")

p("Chords and repeating waveforms through a chain of linear modifiers",
  "Several tones at once through a chain of linear modifiers come out as the same tones, each multiplied by the chain's response at its own frequency, up to the chain's rounding errors and an error that dies out. A waveform that repeats every P samples is the sum of its P harmonics, so it ends up as a waveform of the same period, harmonic by harmonic multiplied by the response, never beyond the product of the gains times its amplitude; a wave whose second half is its first half upside down stays one, so it has no mean and no even harmonics before and after. A Square of a frequency that divides 24000 Hz or a Triangle of any frequency in a whole-number ratio to the sample rate, followed by any chain in a SimpleSound, is such a wave from the first sample on (the Triangle up to the drift of its phase).",
  "for all chains of linear modifiers (gain, delay, echo, low pass, high pass, band pass, Generic) in the range of C105, all lists of tones, all periods and waveforms, all amplitudes within the room, unboundedly many samples, all divisors of 24000",
  "it is about all waveforms and all chains, and about what is left after the start has died out",
  "src/modifiers/lowpass.rs:82-93", "src/modifiers/highpass.rs:110-122", "src/modifiers/bandpass.rs:134-145", "src/modifiers/generic.rs:63-80", "src/modifiers/delay.rs:35-39", "src/modifiers/echo.rs:32-37", "src/modifiers/gain.rs:21-25", "src/generators/square.rs:31-45", "src/generators/triangle.rs:31-47", "src/sounds/simple_sound.rs:process")

p("The order in which a channel mixes its sounds",
  "A StandardChannel keeps its sounds in a HashMap, whose order of iteration is unspecified, and f32 addition is not associative. This is about the mixing loop on a buffer of any content; through the present API the buffer is always empty (C72). Whatever the order, process leaves the sounds in the same states and each sample of the buffer is the exact mix (buffer plus samples, times gain) up to one rounding per sound and one for the gain, for Mono and for either side of Stereo. Two sounds into a cleared buffer give the same bits in either order, and so do any number of sounds on a common binary grid, such as up to 131071 sounds of 8-bit samples. Relied on but false in general: the same channel need not give the same bits again, already with three sounds.",
  "for all channels of any number of distinct sounds, all orders, all buffers of any length, all gains and samples within the room; the two-sound case for all f32 samples including infinities and NaN",
  "the order is chosen by a randomly seeded hasher, so a test sees one of n! orders, and the differences are in the last bits of some samples only",
  "src/channels/standard_channel.rs:64-74", "src/sample_format/mono.rs:79-81", "src/sample_format/mono.rs:124-126", "src/sample_format/stereo.rs:126-129", "src/sample_format/stereo.rs:177-180")

p("Ring modulation",
  "A StandardBlock of a Sine and a modifier with the default interactor multiplies what the modifier puts out by the sine and is never louder than it. So every tone of frequency f that comes in gives way to two tones, f + c and f - c for a sine of c Hz, half as loud each; sums above 24000 Hz are heard as their difference to 48000 Hz; a sine multiplied by itself is its octave on top of a constant one half. A Sine ring modulated by another and sent through a chain of linear modifiers plays the two sidebands, each with the chain's response at its own frequency, up to the errors of the two sines, of the chain, and one that dies out.",
  "for all frequencies from 0 to 48000 Hz, all chords, all finite input signals, all modifiers that do not panic, all chains in the range of C105, unboundedly many samples, every libm with an accurate sine",
  "it is about the spectrum of unboundedly long signals for all pairs of frequencies",
  "src/sounds/standard_block.rs:default_interactor", "src/sounds/standard_block.rs:StandardBlock::process", "src/generators/sine.rs:Sine::process", "src/sounds/simple_sound.rs:SimpleSound::process")

p("Playback at speeds set before every sample",
  "A MonoResampler without a loop may have its speed changed before every sample. As long as each step is a multiple of the binary fraction that goes with the track's length (whole speeds, halves, quarters and so on at 48000 Hz), there is no drift: the position is exactly the sum of the steps so far, the output is the track interpolated there, the very sample at whole positions, and silence exactly from the moment the sum reaches the length; it never panics. So speed 2 plays every second sample, speed 1/2 the samples and the points halfway between them. Relied on but false for other speeds: ten calls at speed 1/10 do not move on by exactly one sample.",
  "for all tracks of up to 2^23 samples within the room, all rates, all lists of speeds of any length whose steps are such multiples, every call",
  "the position is a sum of unboundedly many steps in f32, in any order of any speeds; exactness of every sum cannot be seen from a few",
  "src/utils/mono_resampler.rs:50-57", "src/utils/mono_resampler.rs:60-85")

p("Opening a WAV file and saving it again",
  "Reading any WAV file of whole frames and writing its tracks at the same bit depth gives the same integers in the same places, and so does the detour over a file of greater depth and back, clipped or not, as long as the most negative integer does not occur; a file that ends within a frame can be read but is refused when saved. Relied on but false: the sample rate of the file is not kept, every saved file says 48000 Hz, so a file of another rate changes its pitch; saving with clipping turns every -32768 of a 16-bit file into -32767; and saving a 16-bit file that holds -32768 with 24 bits and no clipping puts an integer into it that has no 24 bits.",
  "for all files (from any program) of 1 to 65535 channels, 8, 16 or 24 bits and any number of frames, all pairs of depths, clipping on or off",
  "every integer in every place of a file of any size has to come back, through two different scalings and roundings",
  "src/utils/mod.rs:109-138", "src/utils/mod.rs:175-250", "src/sample_format/mod.rs:106-155")

p("What normalising does to the waveform",
  "normalize subtracts one constant from every sample and multiplies by one positive number, so the waveform keeps its shape: each output is g(s - c) up to 2^-22 of itself, c is the mean of the track up to one f32 rounding per sample and one for the division (to 2^-25 for 8-bit tracks, whose sum is exact), g brings the loudest sample to the target level within 2^-22, and no two samples change their order. A track already at the target with a small mean is changed as little, so normalising an 8-bit track twice moves no sample by more than (n + 128) 2^-21 of the target. Relied on but false: a constant track becomes silent. 2^25 or more ones come out at full level, because the f32 sum stops at 2^24 and the mean is taken for at most one half; 2^24 or fewer come out as NaN.",
  "for all tracks of up to 2^24 samples of magnitude up to 2^60 that are not constant, all 8-bit tracks of up to 131071 samples with two different values, all target levels from 2^-60 to 2^60, every libm; the constant case for all lengths up to 2^24 and from 2^25 to 2^64 - 1",
  "the mean is a rounded sum over every sample of a track of any length, and the constant only goes wrong after ten minutes of audio",
  "src/utils/mod.rs:66-89")

if __name__=="__main__":
    with open("/verif/properties.jsonl","w") as f:
        for x in P: f.write(json.dumps(x)+"\n")
    print(len(P))
    for x in P: print(x["id"],x["title"])
