{"id": "C01", "title": "framing returns exactly the documented sample blocks", "statement": "When framing succeeds, row i, column j of the returned matrix is sample i*hop+j of the signal, with hop=int(win_hop*fs) and row length int(win_len*fs); the number of rows is floor((N-len)/hop)+1 and the second result is the row length.", "quantifier": "every signal (any length, any sample values including NaN/inf), every sampling rate, every window length and hop, and every rounding of the product win_len*fs", "why_tests_cant": "a test samples a few signals and lengths; the index arithmetic must be right for every length/hop/size combination", "anchors": ["spafe/utils/preprocessing.py:framing", "spafe/utils/preprocessing.py:stride_trick"]}
{"id": "C02", "title": "framing never reads memory outside the signal", "statement": "For a mono (1-D or Nx1) signal and a hop of at least one sample, every element of the frames view lies inside the signal buffer. The guarantee fails for a negative hop and for a signal with more than one column: there the view reads outside the buffer.", "quantifier": "every signal, every frame length, every positive hop (safety); existence of inputs for the two failures", "why_tests_cant": "an out-of-bounds strided read usually returns garbage instead of crashing, and only some size/hop residues trigger it", "anchors": ["spafe/utils/preprocessing.py:stride_trick", "spafe/utils/preprocessing.py:framing"]}
{"id": "C03", "title": "framing covers the signal except a tail shorter than one hop", "statement": "When framing succeeds with hop<=len, every sample before the end of the last frame is in at least one frame, and the number of trailing samples in no frame is (N-len) mod hop, hence less than one hop. No zero padding ever happens, so the tail is dropped whenever that remainder is non-zero.", "quantifier": "every signal, frame length and hop", "why_tests_cant": "depends on all residues of N-len modulo hop", "anchors": ["spafe/utils/preprocessing.py:framing"]}
{"id": "C04", "title": "framing reports every unusable configuration with an exception", "statement": "framing raises ParameterError exactly when win_len<win_hop; otherwise ZeroDivisionError exactly when the hop truncates to 0 samples; otherwise, for a positive hop, a signal shorter than one window raises (IndexError when short by at most one hop, ValueError otherwise) and a signal at least one window long always succeeds with at least one frame.", "quantifier": "every signal and parameter combination with a non-negative window length", "why_tests_cant": "the boundary between success and each exception is a two-parameter inequality, tests hit isolated points", "anchors": ["spafe/utils/preprocessing.py:framing", "spafe/utils/exceptions.py:ErrorMsgs"]}
{"id": "C05", "title": "window duration in seconds is converted to samples with an error of at most one sample", "statement": "If win_len is the binary64 number nearest to k/fs then frame length is k or k-1 samples, for all 1<=k and fs up to 2^50; the value k-1 does occur, so a duration that is a whole number of samples can silently lose a sample.", "quantifier": "all integer pairs (k, fs) in range, binary64 round-to-nearest-even arithmetic", "why_tests_cant": "requires all float products; a table of examples proves nothing about the rest", "anchors": ["spafe/utils/preprocessing.py:framing"]}
{"id": "C06", "title": "pre-emphasis is exactly y[t]=x[t]-a*x[t-1]", "statement": "pre_emphasis returns a signal of the same length whose first sample is x[0] and whose sample t is x[t]-a*x[t-1]; coefficient 0 is the identity; it is linear in the signal; and the original signal can be recovered from the output by y[t]+a*x[t-1].", "quantifier": "every non-empty finite signal and every coefficient", "why_tests_cant": "universally quantified over signals and lengths", "anchors": ["spafe/utils/preprocessing.py:pre_emphasis"]}
{"id": "C07", "title": "pre-emphasis can be streamed", "statement": "The pre-emphasised prefix of a signal is the prefix of the pre-emphasised signal: later samples never influence earlier outputs.", "quantifier": "every signal and every split point", "why_tests_cant": "causality must hold for all split points", "anchors": ["spafe/utils/preprocessing.py:pre_emphasis"]}
{"id": "C08", "title": "zero_handling makes logarithms of non-negative data finite and changes nothing else", "statement": "zero_handling keeps the length, leaves every non-zero element (including inf/NaN) unchanged, replaces each zero by the binary64 machine epsilon 2^-52, never returns a zero, is idempotent, and the natural logarithm of each element of zero_handling(x) is finite whenever x is finite and non-negative. For negative elements the logarithm is still NaN.", "quantifier": "every vector", "why_tests_cant": "all positions of zeros in all vectors", "anchors": ["spafe/utils/preprocessing.py:zero_handling"]}
{"id": "C09", "title": "windowing multiplies every frame by one fixed, symmetric window in [0,1]", "statement": "For the five supported names windowing returns, for each frame, the element-wise product with the named window of the frame's length; the window is symmetric, every coefficient is in [0,1] (Hamming: at least 0.08), so windowing never increases a sample's magnitude; any other name raises KeyError.", "quantifier": "every frame matrix, every frame length >= 1, every window name", "why_tests_cant": "ranges over all lengths; trigonometric bounds and symmetry must hold for every index", "anchors": ["spafe/utils/preprocessing.py:windowing"]}
{"id": "C10", "title": "windowing uses the textbook window formulas", "statement": "For length M>1 and 0<=n<M the coefficients are Hann 0.5-0.5cos(2 pi n/(M-1)), Hamming 0.54-0.46cos(2 pi n/(M-1)), Blackman 0.42-0.5cos(2 pi n/(M-1))+0.08cos(4 pi n/(M-1)), Bartlett 1-|2n/(M-1)-1|, Kaiser I0(14 sqrt(1-(2n/(M-1)-1)^2))/I0(14).", "quantifier": "every M>1 and n<M", "why_tests_cant": "infinite family of identities", "anchors": ["spafe/utils/preprocessing.py:windowing"]}
{"id": "C11", "title": "mel conversions are mutually inverse", "statement": "For both supported approaches mel2hz(hz2mel(f))=f for every f above the singularity (-700 resp. -625) and hz2mel(mel2hz(m))=m for every m; any other approach name raises KeyError.", "quantifier": "every real frequency in the domain, every name", "why_tests_cant": "tests compare the function with itself", "anchors": ["spafe/utils/converters.py:hz2mel", "spafe/utils/converters.py:mel2hz"]}
{"id": "C12", "title": "frequency scales are strictly increasing and anchored", "statement": "hz2mel, hz2erb, and hz2bark (all six approaches; Zwicker for f>0) are strictly increasing where defined, and mel, erb, Wang, Schroeder and Terhardt map 0 to 0.", "quantifier": "every pair of frequencies in the domain", "why_tests_cant": "monotonicity is a statement about all pairs", "anchors": ["spafe/utils/converters.py:hz2mel", "spafe/utils/converters.py:hz2erb", "spafe/utils/converters.py:hz2bark"]}
{"id": "C13", "title": "erb conversions are mutually inverse", "statement": "erb2hz(hz2erb(f))=f for every f>-1/0.00437 and hz2erb(erb2hz(e))=e for every e; below that frequency hz2erb is not finite; an unknown approach name returns None instead of raising.", "quantifier": "every real frequency", "why_tests_cant": "as above", "anchors": ["spafe/utils/converters.py:hz2erb", "spafe/utils/converters.py:erb2hz"]}
{"id": "C14", "title": "bark conversions: which approaches round-trip", "statement": "bark2hz(hz2bark(f))=f for Wang, Tjomov, Schroeder (every f), Zwicker (every f>0), and any unknown name (which behaves as Wang). It does not hold for Terhardt (13.3 vs 13: fails for every f in (0, limit)) nor for Traunmueller.", "quantifier": "every frequency, all six approaches and every other string", "why_tests_cant": "a self-comparison test cannot see it", "anchors": ["spafe/utils/converters.py:hz2bark", "spafe/utils/converters.py:bark2hz"]}
{"id": "C15", "title": "the Traunmueller correction is a continuous strictly increasing bijection", "statement": "The low/high correction applied inside bark2hz(.,'Traunmueller') agrees at both breakpoints (2 and 20.1), is strictly increasing, and bark2hz itself is strictly increasing below its pole, which lies at the bark value whose corrected value is 26.28.", "quantifier": "every pair of bark values", "why_tests_cant": "all pairs", "anchors": ["spafe/utils/converters.py:bark2hz", "spafe/utils/converters.py:__traunmueller_helper"]}
{"id": "C16", "title": "mel and linear filter banks have shape nfilts x (nfft//2+1)", "statement": "Whenever mel_filter_banks, inverse_mel_filter_banks or linear_filter_banks returns, the matrix has nfilts rows of nfft//2+1 entries and nfilts centre frequencies.", "quantifier": "every parameter combination for which the call returns", "why_tests_cant": "all sizes", "anchors": ["spafe/fbanks/mel_fbanks.py:mel_filter_banks_helper", "spafe/fbanks/linear_fbanks.py:linear_filter_banks"]}
{"id": "C17", "title": "mel and linear filters are triangles with values in [0,1]", "statement": "For 0<=low<high<=fs/2, entry (j,k) equals the scale factor of filter j times max(0,min((f-l)/(c-l),(u-f)/(u-c))) where f is the frequency of column k, and l<c<u are three consecutive points equally spaced on the chosen scale; so all entries lie in [0,1], and all are finite.", "quantifier": "every nfilts, nfft, fs, band and scale", "why_tests_cant": "holds at all bins incl. the corner f=c where both slopes write", "anchors": ["spafe/fbanks/mel_fbanks.py:mel_filter_banks_helper"]}
{"id": "C18", "title": "filter centres are strictly increasing and inside the band", "statement": "The returned centre frequencies are low+(j+1)*(high-low)/(nfilts+1) on the chosen scale (mel or Hz), hence strictly increasing and strictly between the band edges.", "quantifier": "every valid configuration", "why_tests_cant": "all j", "anchors": ["spafe/fbanks/mel_fbanks.py:mel_filter_banks_helper"]}
{"id": "C19", "title": "neighbouring constant-scale triangles sum to one", "statement": "With scale='constant', at every column whose frequency is between the first and the last centre, the column sum of the mel/linear filter bank is exactly 1; no column sum ever exceeds 1.", "quantifier": "every valid configuration and every column", "why_tests_cant": "partition of unity ranges over all columns and all configurations", "anchors": ["spafe/fbanks/mel_fbanks.py:mel_filter_banks_helper"]}
{"id": "C20", "title": "filter-bank parameter validation", "statement": "mel, inverse mel, linear, bark and gammatone filter banks raise ParameterError (with the low_freq message) exactly when low_freq<0, otherwise (with the high_freq message) exactly when high_freq>fs/2; high_freq None or 0 both mean fs/2.", "quantifier": "every parameter combination", "why_tests_cant": "all real values of the band edges", "anchors": ["spafe/fbanks/mel_fbanks.py", "spafe/fbanks/bark_fbanks.py", "spafe/fbanks/gammatone_fbanks.py"]}
{"id": "C21", "title": "columns of a mel/linear filter bank versus FFT bins", "statement": "Column k is evaluated at low+k*(high-low)/(nfft//2). It is the FFT bin frequency k*fs/nfft for all k if low=0 and high=(nfft//2)*fs/nfft, so with the default high_freq exactly when nfft is even; for every odd nfft>=3, and for low>0, the columns do not correspond to FFT bins, although the documentation says they do.", "quantifier": "every configuration", "why_tests_cant": "tests only look at the shape", "anchors": ["spafe/fbanks/mel_fbanks.py:mel_filter_banks_helper"]}
{"id": "C22", "title": "an inverted band is not rejected", "statement": "With 0<high<low<=fs/2 the mel and linear filter banks return without an error and every entry of the bank is zero.", "quantifier": "every inverted band", "why_tests_cant": "silent degenerate output", "anchors": ["spafe/fbanks/mel_fbanks.py:mel_filter_banks_helper"]}
{"id": "C23", "title": "inverse mel filters are the mirrored mel filters", "statement": "When inverse_mel_filter_banks returns, entry (j,k) equals entry (j, nfft//2-k) of the mel filter bank computed with ascending and descending scaling exchanged.", "quantifier": "every configuration", "why_tests_cant": "all entries", "anchors": ["spafe/fbanks/mel_fbanks.py:inverse_mel_filter_banks"]}
{"id": "C24", "title": "inverse mel filter banks need an explicit high_freq", "statement": "inverse_mel_filter_banks with high_freq=None (its default) and nfilts>=1 never returns: it raises TypeError (or the ParameterError of an invalid low_freq); the same holds for imfcc without a user-supplied bank.", "quantifier": "every other parameter", "why_tests_cant": "tests always pass high_freq", "anchors": ["spafe/fbanks/mel_fbanks.py:inverse_mel_filter_banks", "spafe/features/mfcc.py:imfcc"]}
{"id": "C25", "title": "inverse mel centre frequencies", "statement": "The j-th centre returned by inverse_mel_filter_banks is the mel value of high - c_j. It is the position of the mirrored filter's peak (low+high-c_j) if and only if low=0.", "quantifier": "every configuration with explicit high_freq", "why_tests_cant": "tests ignore this result", "anchors": ["spafe/fbanks/mel_fbanks.py:inverse_mel_filter_banks"]}
{"id": "C26", "title": "scaling vectors", "statement": "scale_fbank returns nfilts factors: ascendant i/nfilts for i=1..nfilts, descendant the reverse, constant all ones; all in (0,1], an unknown name raises KeyError; applying a scale multiplies every row of the constant bank by its factor.", "quantifier": "every nfilts>=1 and name", "why_tests_cant": "all sizes", "anchors": ["spafe/utils/filters.py:scale_fbank", "spafe/fbanks/mel_fbanks.py:mel_filter_banks_helper"]}
{"id": "C27", "title": "the Bark masking curve", "statement": "Fm(fb,fc) depends only on fb-fc, is 0 outside [-1.3,2.5], is in [0.01,1] inside, equals 1 on [-0.5,0.5], is non-decreasing left of it and non-increasing right of it.", "quantifier": "all pairs of bark frequencies", "why_tests_cant": "continuum of inputs", "anchors": ["spafe/fbanks/bark_fbanks.py:Fm"]}
{"id": "C28", "title": "Bark filter bank contents", "statement": "For 0<=low<high<=fs/2, nfilts>=2 and an approach that round-trips (Wang, Tjomov, Schroeder, unknown names), bark_filter_banks returns an nfilts x (nfft//2+1) matrix whose entry (j,i) is scale_j*Fm(hz2bark(i*fs/(nfft+1)), centre_j) for floor((nfft+1)*low/fs)<=i<floor((nfft+1)*high/fs) and 0 elsewhere; no write is out of bounds; entries are in [0,1]; centres are nfilts points equally spaced from bark(low) to bark(high) inclusive.", "quantifier": "every valid configuration", "why_tests_cant": "index range must stay in bounds for every size", "anchors": ["spafe/fbanks/bark_fbanks.py:bark_filter_banks"]}
{"id": "C29", "title": "Bark filter bank failures of the other approaches", "statement": "With conversion_approach='Zwicker' and low_freq=0 (the default) bark_filter_banks always raises ValueError for nfilts>=1; with 'Terhardt' and otherwise default parameters it raises IndexError for every nfilts>=2 and scale; with nfilts=1 it returns an all-zero filter for every round-tripping approach.", "quantifier": "every other parameter for Zwicker and for nfilts=1; default parameters for Terhardt", "why_tests_cant": "tests never pass conversion_approach to the filter bank", "anchors": ["spafe/fbanks/bark_fbanks.py:bark_filter_banks"]}
{"id": "C30", "title": "gammatone centre frequencies", "statement": "For 0<=min<max and n>=1 generate_center_frequencies returns n strictly increasing values, the first equal to min and all below max, equally spaced on the log(f+c) scale with c=EarQ*minBW.", "quantifier": "every band and n", "why_tests_cant": "all sizes", "anchors": ["spafe/fbanks/gammatone_fbanks.py:generate_center_frequencies"]}
{"id": "C31", "title": "gammatone filters are normalised", "statement": "For 0<=low<high<=fs/2, nfft>=3 and order>=1, every entry of the constant-scale gammatone bank is finite and in [0,1], every row contains the value 1 and is proportional to the magnitude response of the fourth-order gammatone approximation at its centre frequency; with another scale row j is multiplied by its factor. The shape is nfilts x (nfft//2+1) and the second result is the centre frequencies in ERB.", "quantifier": "every valid configuration", "why_tests_cant": "needs non-vanishing of complex gains for all parameters", "anchors": ["spafe/fbanks/gammatone_fbanks.py:gammatone_filter_banks", "spafe/fbanks/gammatone_fbanks.py:compute_gain"]}
{"id": "C32", "title": "mean subtraction centres every coefficient", "statement": "After normalize_ceps with 'ms', and with 'mvn' when the matrix is not constant, every column has mean zero; 'ms' is unchanged by adding a constant row to every row of the input and is idempotent.", "quantifier": "every finite non-empty matrix", "why_tests_cant": "all matrices", "anchors": ["spafe/utils/cepstral.py:normalize_ceps"]}
{"id": "C33", "title": "variance normalisation is global, not per coefficient", "statement": "'mvn' and 'vn' divide by the standard deviation of all matrix entries; the entries of 'vn' have overall standard deviation 1; 'mvn' does not give each column unit variance (a counterexample exists even for two columns).", "quantifier": "every finite non-constant matrix; existence for the violation", "why_tests_cant": "tests compare the formula with itself", "anchors": ["spafe/utils/cepstral.py:normalize_ceps"]}
{"id": "C34", "title": "mean normalisation has range one", "statement": "After 'mn' of a non-constant matrix max-min=1, the overall mean is 0 and every entry lies in [-1,1].", "quantifier": "every finite non-constant matrix", "why_tests_cant": "all matrices", "anchors": ["spafe/utils/cepstral.py:normalize_ceps"]}
{"id": "C35", "title": "normalisation invariances and degenerate inputs", "statement": "'mvn' and 'mn' are unchanged by x -> a*x+b with a>0; 'vn' by x -> a*x with a>0; a constant matrix gives NaN everywhere for mvn and mn; unknown names raise KeyError; empty input raises ValueError for every name.", "quantifier": "every matrix and a>0", "why_tests_cant": "all matrices and gains", "anchors": ["spafe/utils/cepstral.py:normalize_ceps"]}
{"id": "C36", "title": "exponential liftering", "statement": "For 0<lift<=10, lifter_ceps multiplies column 0 by 1 and column j>=1 by j^lift; it is linear, invertible, and liftering by a then b (a+b<=10) is liftering by a+b; lift=0 or lift>10 returns the input unchanged.", "quantifier": "every finite matrix with at least one column and every lift", "why_tests_cant": "all sizes and exponents", "anchors": ["spafe/utils/cepstral.py:lifter_ceps"]}
{"id": "C37", "title": "sine liftering", "statement": "For lift<=-1, with L=int(-lift), column j is multiplied by 1+(L/2)sin(pi(j+1)/L); factors of the first L columns are at least 1; later columns can be multiplied by zero (information is lost); -1<lift<0 turns every entry into NaN.", "quantifier": "every matrix, every L", "why_tests_cant": "all sizes", "anchors": ["spafe/utils/cepstral.py:lifter_ceps"]}
{"id": "C38", "title": "delta features", "statement": "deltas returns a matrix of the shape of its input; entry t is the sum over k=-h..h of k*x[clamp(t+k)] with h=floor(w/2) and edge replication; constant rows give zeros; adding a constant to a row changes nothing; for a linear row of slope s the entries at distance >=h from both ends are s*sum k^2 (not s: the slope is not normalised); windows w and w+1 agree for even w.", "quantifier": "every matrix with at least one row and column, every w>=0", "why_tests_cant": "all lengths and windows", "anchors": ["spafe/utils/cepstral.py:deltas"]}
{"id": "C39", "title": "the orthonormal DCT keeps energy and isolates gain", "statement": "The orthonormal DCT (types 1-4) preserves inner products of rows, hence the sum of squares of every row; it is linear; type 3 undoes type 2 and back, types 1 and 4 undo themselves; the type-2 DCT of a constant row c of length N is (c*sqrt N,0,...,0).", "quantifier": "every row of every length N>=1", "why_tests_cant": "all sizes", "anchors": ["spafe/features/mfcc.py:mfcc"]}
{"id": "C40", "title": "spectrograms are non-negative filter-bank energies", "statement": "mel/linear/bark/erb spectrogram entry (i,j) is sum_k fbank[j,k]*|X_i[k]|^2/nfft where X_i is the DFT of frame i cropped or zero-padded to nfft; with a non-negative bank all entries are non-negative; the second result is |X_i[k]| for k<=nfft//2.", "quantifier": "every finite signal and configuration", "why_tests_cant": "all signals", "anchors": ["spafe/features/mfcc.py:mel_spectrogram", "spafe/features/lfcc.py:linear_spectrogram", "spafe/features/bfcc.py:bark_spectrogram", "spafe/features/gfcc.py:erb_spectrogram"]}
{"id": "C41", "title": "features have one row per frame and num_ceps columns", "statement": "Whenever mfcc, imfcc, lfcc, gfcc, bfcc, ngcc, msrcc, psrcc or pncc returns, the matrix has as many rows as framing produces and min(num_ceps, number of filters in the bank) columns (num_ceps>=0).", "quantifier": "every signal and configuration", "why_tests_cant": "all sizes", "anchors": ["spafe/features/mfcc.py:mfcc", "spafe/features/lfcc.py:lfcc", "spafe/features/gfcc.py:gfcc", "spafe/features/bfcc.py:bfcc"]}
{"id": "C42", "title": "log-compressed features are finite for every finite signal", "statement": "For every finite signal long enough for one frame and every finite, entrywise non-negative filter bank, mfcc, imfcc, lfcc, ngcc, bfcc (without normalisation, lifter >= 0 or <= -1) return only finite numbers, including for silence; so do they with the computed banks on a valid band. Silence gives (ln(2^-52)*sqrt(nfilts),0,...,0) in every frame.", "quantifier": "every finite signal including silence", "why_tests_cant": "requires all inputs incl. zeros in any position", "anchors": ["spafe/features/mfcc.py:mfcc", "spafe/features/lfcc.py:lfcc", "spafe/features/ngcc.py:ngcc", "spafe/features/bfcc.py:bfcc"]}
{"id": "C43", "title": "root-compressed features on silence", "statement": "gfcc of an all-zero signal is finite (zero); msrcc with the default gamma of any frame with a zero band energy contains non-finite values; pncc of an all-zero signal (two or more filters) is NaN everywhere.", "quantifier": "every all-zero signal that is long enough", "why_tests_cant": "depends on the exponent sign and 0/0 paths", "anchors": ["spafe/features/gfcc.py:gfcc", "spafe/features/msrcc.py:msrcc", "spafe/features/pncc.py:pncc"]}
{"id": "C44", "title": "cepstra beyond the first do not depend on the recording gain", "statement": "Multiplying the signal by any g multiplies every spectrogram entry by g^2 and every magnitude by |g|. For g<>0 and mfcc/imfcc/lfcc/ngcc with dct_type 2, no lifter/normalisation/energy and no zero band energy, it adds 2*ln|g|*sqrt(nfilts) to coefficient 0 and leaves all other coefficients unchanged; gfcc is multiplied by |g|^(2/3) and msrcc by |g|^(2*gamma).", "quantifier": "every finite signal and every gain", "why_tests_cant": "all signals and gains", "anchors": ["spafe/features/mfcc.py:mfcc"]}
{"id": "C45", "title": "each feature row depends only on its own frame", "statement": "Without normalisation, row i of mfcc/lfcc/gfcc/bfcc/ngcc/msrcc/lpc/lpcc depends only on the signal length and on the samples i*hop-1 .. i*hop+len-1 (without the first when pre-emphasis is off).", "quantifier": "all pairs of signals of equal length agreeing on that range", "why_tests_cant": "non-interference is a property of pairs of runs", "anchors": ["spafe/features/mfcc.py:mfcc", "spafe/features/lpc.py:lpc"]}
{"id": "C46", "title": "use_energy replaces coefficient 0 by the log frame energy and nothing else", "statement": "With use_energy=True and no lifter/normalisation the matrix equals the one without it except for column 0, which is ln of the frame's power-spectrum sum (epsilon if zero); with num_ceps=0 it raises IndexError.", "quantifier": "every signal and configuration", "why_tests_cant": "all entries of all outputs", "anchors": ["spafe/features/mfcc.py:mfcc", "spafe/features/lfcc.py:lfcc", "spafe/features/gfcc.py:gfcc"]}
{"id": "C47", "title": "number of cepstra is checked first", "statement": "mfcc, imfcc, lfcc, gfcc, bfcc, ngcc, msrcc, psrcc, pncc, plp and rplp raise ParameterError(nfilts message) whenever nfilts<num_ceps (order), whatever the other arguments are.", "quantifier": "all other arguments incl. invalid ones", "why_tests_cant": "precedence over every other failure", "anchors": ["spafe/features/mfcc.py:mfcc", "spafe/features/rplp.py:__rastaplp"]}
{"id": "C48", "title": "which extractors honour pre_emph_coeff", "statement": "lfcc, linear_spectrogram, gfcc, erb_spectrogram, bfcc, bark_spectrogram, lpc and lpcc return the same result for every value of pre_emph_coeff (always 0.97); for mel_spectrogram, mfcc, imfcc, ngcc and msrcc any two different coefficients give different results on some signal.", "quantifier": "all pairs of coefficients and all signals", "why_tests_cant": "a relational property", "anchors": ["spafe/features/lfcc.py:linear_spectrogram", "spafe/features/gfcc.py:erb_spectrogram", "spafe/features/bfcc.py:bark_spectrogram", "spafe/features/lpc.py:lpc"]}
{"id": "C49", "title": "frames longer than nfft are truncated", "statement": "If the frame length exceeds nfft, the spectrogram and features do not depend on samples nfft.. of each windowed frame.", "quantifier": "all signals agreeing on the retained samples", "why_tests_cant": "relational", "anchors": ["spafe/features/mfcc.py:mel_spectrogram"]}
{"id": "C50", "title": "lpc and lpcc ignore the window shape", "statement": "lpc and lpcc return the same result for all five window names (they analyse the unwindowed frames); an unknown name still raises KeyError.", "quantifier": "all signals, all pairs of names", "why_tests_cant": "relational", "anchors": ["spafe/features/lpc.py:lpc", "spafe/features/lpc.py:lpcc"]}
{"id": "C51", "title": "LPC coefficients solve the normal equations", "statement": "For every frame with a non-zero sample and order p>=1, the predictor returned for the frame starts with 1 and satisfies sum_j r[|i-j|] a[j] = 0 for i=1..p, where r is the frame's autocorrelation; it is the unique such vector, minimises the prediction energy, and is unchanged by a gain; an all-zero frame raises LinAlgError.", "quantifier": "every finite frame and order", "why_tests_cant": "needs non-singularity for all frames", "anchors": ["spafe/features/lpc.py:__lpc_helper"]}
{"id": "C52", "title": "LPC error term", "statement": "The error value returned with the LPC coefficients is |R[0]+sum a[k]R[k+1]| where R is the full two-sided correlation starting at lag -(N-1); it is not the prediction error energy r[0]+sum a[k]r[k].", "quantifier": "every frame; existence for the difference", "why_tests_cant": "no reference in tests", "anchors": ["spafe/features/lpc.py:__lpc_helper"]}
{"id": "C53", "title": "LPC to cepstrum conversion", "statement": "lpc2lpcc(a,e,n) for n=len(a) returns c[0]=ln(e or eps) and c[m]=a[m]+sum_{k=1}^{m-1}(k/m)a[m-k]; this is the cepstral recursion c[m]=a[m]+sum (k/m)c[k]a[m-k] at m=1, at m=2 only if a[1] is 0 or 1, so in general not. For n<len(a) or n>len(a)+1 the call raises IndexError.", "quantifier": "every predictor, error and n", "why_tests_cant": "all lengths", "anchors": ["spafe/features/lpc.py:lpc2lpcc"]}
{"id": "C54", "title": "YIN difference function", "statement": "compute_difference(x,T) returns min(T,len x) values, value tau being sum_{j<len-tau}(x[j]-x[j+tau])^2; so it is non-negative and 0 at tau=0.", "quantifier": "every finite frame", "why_tests_cant": "cumulative-sum/convolution identity for all lengths", "anchors": ["spafe/frequencies/fundamental_frequencies.py:compute_difference"]}
{"id": "C55", "title": "YIN cumulative mean normalisation", "statement": "compute_cmnd(d,T) for len d = T and d>=0 returns 1 at 0 and d[tau]*tau/sum_{1..tau}d at tau>=1, NaN while that sum is 0; the value at lag 1 is 1 or NaN and the one at lag tau is at most max(1,tau); it is invariant to a positive gain of d; for lengths that do not broadcast it raises ValueError.", "quantifier": "every difference vector", "why_tests_cant": "all lengths", "anchors": ["spafe/frequencies/fundamental_frequencies.py:compute_cmnd"]}
{"id": "C56", "title": "YIN pitch search", "statement": "get_pitch terminates and returns 0 if no lag in [tau_min,tau_max) is below the threshold; otherwise the end of the strictly descending run that starts at the first lag below the threshold: a lag in range, below the threshold, whose successor is not smaller.", "quantifier": "every curve (also with NaN), range and threshold", "why_tests_cant": "loop invariant over all curves", "anchors": ["spafe/frequencies/fundamental_frequencies.py:get_pitch"]}
{"id": "C57", "title": "YIN output ranges", "statement": "compute_yin returns four vectors of equal length max(0,ceil((N-len)/hop)), times are i*hop/fs; each pitch is 0 or fs/p with tau_min<=p<tau_max being the lag described in C56, so every non-zero pitch exceeds low_freq and is below high_freq*fs/(fs-high_freq); it can exceed high_freq because of truncation, and does for every pulse train of period int(fs/high_freq)>=2 when fs/high_freq is not an integer. The harmonic rate is the curve at p, or its least number when unvoiced. A final window that ends exactly at the end of the signal is not analysed.", "quantifier": "every signal and parameter set", "why_tests_cant": "all lengths and residues", "anchors": ["spafe/frequencies/fundamental_frequencies.py:compute_yin"]}
{"id": "C58", "title": "YIN requires the window to hold one maximal period", "statement": "If at least one window is analysed and int(win_len*fs) < int(fs/low_freq) (window not of two samples, int(fs/low_freq)>=3), compute_yin raises ValueError.", "quantifier": "every signal", "why_tests_cant": "parameter interplay", "anchors": ["spafe/frequencies/fundamental_frequencies.py:compute_yin", "spafe/frequencies/fundamental_frequencies.py:compute_cmnd"]}
{"id": "C59", "title": "dominant frequency of a frame", "statement": "The value reported for a frame whose spectrum peaks at bin k (first of the largest) is fftfreq(nfft//2+1)[k]*fs rounded to 3 decimals, i.e. k*fs/M for 2k<M and (k-M)*fs/M above, M=nfft//2+1, of absolute value at most fs/2; the unrounded value equals the true bin frequency k*fs/nfft only for k=0; peaks in the upper half of the spectrum are reported negative and are dropped by default.", "quantifier": "every frame, nfft>=2 and bin", "why_tests_cant": "tests only check that something is returned", "anchors": ["spafe/frequencies/dominant_frequencies.py:get_dominant_frequencies"]}
{"id": "C60", "title": "dominant frequencies count", "statement": "Without only_positive there is exactly one value per frame; with it, the result is the subsequence of non-negative values.", "quantifier": "every signal", "why_tests_cant": "all signals", "anchors": ["spafe/frequencies/dominant_frequencies.py:get_dominant_frequencies"]}
{"id": "C61", "title": "spectral centroid stays in band", "statement": "For every spectrum with non-zero magnitude sum the centroid is between 0 and fs/2, is invariant to a gain, and for a silent spectrum is NaN.", "quantifier": "every spectrum", "why_tests_cant": "all spectra", "anchors": ["spafe/features/spfeats.py:spectral_centroid"]}
{"id": "C62", "title": "spectral flatness is in [0,1]", "statement": "For every non-silent spectrum, flatness is between 0 and 1, equals 1 exactly for a constant magnitude spectrum, is 0 exactly when some bin is zero, and is invariant to a gain; for silence it is NaN.", "quantifier": "every spectrum", "why_tests_cant": "AM-GM for all lengths", "anchors": ["spafe/features/spfeats.py:spectral_flatness"]}
{"id": "C63", "title": "spectral flux", "statement": "Flux with a natural p>=1 (2 by default) is the p-norm of successive magnitude differences: non-negative, 0 exactly for constant magnitude spectra, homogeneous of degree one.", "quantifier": "every spectrum", "why_tests_cant": "all spectra", "anchors": ["spafe/features/spfeats.py:spectral_flux"]}
{"id": "C64", "title": "spectral rolloff is not a frequency", "statement": "spectral_rolloff(s,k) is k times the magnitude sum; the value stored by extract_feats is fs*spectrum (an array), because the sampling rate is passed as the spectrum.", "quantifier": "every spectrum", "why_tests_cant": "no reference value in tests", "anchors": ["spafe/features/spfeats.py:spectral_rolloff", "spafe/features/spfeats.py:extract_feats"]}
{"id": "C65", "title": "constant-Q kernel selection", "statement": "compute_constant_qtransform uses exactly the centre frequencies f0*2^(i/B), i<octaves*B, inside [low,high] whose kernel length ceil(Q*fs/f) is at most nfft, each paired with its own length; the result has one row per such frequency and one column per frame. If no kernel fits but some frequency is in the band, it raises IndexError.", "quantifier": "every configuration with f0, q_rate, fs, bins > 0", "why_tests_cant": "alignment of two filtered lists for all parameters", "anchors": ["spafe/utils/spectral.py:compute_constant_qtransform"]}
{"id": "C66", "title": "constant-Q transform is linear in the frames", "statement": "For fixed parameters (spectral threshold included) the constant-Q transform of a*x+b*y is a times that of x plus b times that of y, entry by entry.", "quantifier": "all frames and scalars", "why_tests_cant": "all inputs", "anchors": ["spafe/utils/spectral.py:compute_constant_qtransform"]}
{"id": "C67", "title": "PNCC medium-time power", "statement": "Entry (m,l) of medium_time_power_calculation is 1/(2M+1) times the sum of P over the frames m-M..m+M that exist; it is non-negative for non-negative P and never exceeds the column maximum.", "quantifier": "every matrix", "why_tests_cant": "edges for all sizes", "anchors": ["spafe/features/pncc.py:medium_time_power_calculation"]}
{"id": "C68", "title": "PNCC asymmetric low-pass filter stays within the data", "statement": "Each row of asymmetric_lowpass_filtering is one filter step from the previous output row. For 0<=lm_a,lm_b<=1 and non-negative input, every output is between 0 and the column maximum. With two or more frames the first output row is (1-lm_a) times the first input row: the assigned initial value 0.9*Q[0] is used only when there is a single frame.", "quantifier": "every matrix", "why_tests_cant": "recursion over any number of frames", "anchors": ["spafe/features/pncc.py:asymmetric_lowpass_filtering"]}
{"id": "C69", "title": "PNCC temporal masking", "statement": "Each output is the input when it is at least lam_t times the previous online peak and myu_t times that peak otherwise, where the online peak is max over earlier frames of lam_t^age * input; outputs are non-negative for non-negative input.", "quantifier": "every matrix", "why_tests_cant": "recursion over any number of frames", "anchors": ["spafe/features/pncc.py:temporal_masking"]}
{"id": "C70", "title": "PNCC weight smoothing", "statement": "weight_smoothing sums the ratios R/Q over channels l1..l2-1 and divides by l2-l1+1 (l1=max(l-N,1), l2=min(l+N,L)); hence for R=Q the result is strictly below 1 instead of 1, and channel 0 never contributes; Q=0 with R=0 in a used channel gives NaN.", "quantifier": "every pair of matrices", "why_tests_cant": "off-by-one at every channel", "anchors": ["spafe/features/pncc.py:weight_smoothing"]}
{"id": "C71", "title": "PNCC mean power normalisation never divides by zero", "statement": "For non-negative finite input of at least one frame the running power estimate is positive in every frame, so the output is finite and non-negative, including for silence.", "quantifier": "every matrix, any number of frames", "why_tests_cant": "induction over frames", "anchors": ["spafe/features/pncc.py:mean_power_normalization"]}
{"id": "C72", "title": "RASTA filter", "statement": "rasta_filter keeps the shape, sets the first four columns of every row to zero and filters along the row (bands), not across rows (time). On finite data each output row depends only on its own input row, although the filter state is carried from row to row; a single NaN in a row leaks into the next row.", "quantifier": "every matrix with at least four columns; existence for the NaN leak", "why_tests_cant": "relational", "anchors": ["spafe/utils/filters.py:rasta_filter"]}
{"id": "C73", "title": "phase features", "statement": "psrcc weights with the filter bank the phases of the DFT bins in degrees, each in [0,360) (0 for a zero bin); with no zero band sum or a positive exponent the result is the DCT of the roots of the band sums. The features passed to the DCT never contain a NaN, whatever the frames contain.", "quantifier": "every finite signal; NaN part: every matrix of windowed frames", "why_tests_cant": "all signals", "anchors": ["spafe/features/psrcc.py:psrcc"]}
{"id": "C74", "title": "intensity-loudness law", "statement": "intensity_power_law is even, finite and non-negative for every real input and zero exactly at zero.", "quantifier": "every real", "why_tests_cant": "continuum", "anchors": ["spafe/features/bfcc.py:intensity_power_law"]}
{"id": "C75", "title": "spectrogram display range", "statement": "The dB image built by show_spectrogram has maximum exactly 0 and all values in [-dbf,0], for dbf>=0 and any finite non-empty spectrogram; an entry is 10 log10 of the ratio of its magnitude to the largest one, with floors 1e-10 and -dbf.", "quantifier": "every spectrogram", "why_tests_cant": "all inputs", "anchors": ["spafe/utils/vis.py:show_spectrogram"]}
{"id": "C76", "title": "decade laws of the frequency scales", "statement": "On the mel scales multiplying (f+D) by ten adds the constant C (2595/700 and 2410/625); the ERB scale obeys the same law with its own constants.", "quantifier": "every frequency above the singularity", "why_tests_cant": "an algebraic law over all frequencies; tests see a few points", "anchors": ["spafe/utils/converters.py:hz2mel", "spafe/utils/converters.py:hz2erb"]}
{"id": "C77", "title": "an empty band gives a bank of NaN", "statement": "With 0<=low=high<=fs/2 and nfilts>=1 the linear filter bank returns without an error and every entry of the bank is NaN.", "quantifier": "every such band, nfilts, nfft and scale", "why_tests_cant": "needs every parameter choice; the result is silent, no exception tells the caller", "anchors": ["spafe/fbanks/linear_fbanks.py:linear_filter_banks"]}
{"id": "C78", "title": "the half spectrum keeps the energy of the frame", "statement": "If the frame length is at most nfft, the squared magnitudes returned by a spectrogram function, inner bins counted twice, sum to nfft times the energy of the windowed frame.", "quantifier": "every finite signal and configuration", "why_tests_cant": "an identity over all signals and FFT sizes (odd and even)", "anchors": ["spafe/features/mfcc.py:mel_spectrogram", "spafe/features/lfcc.py:linear_spectrogram", "spafe/features/bfcc.py:bark_spectrogram", "spafe/features/gfcc.py:erb_spectrogram"]}
{"id": "C79", "title": "features move with the signal", "statement": "Without normalisation, dropping the first hop samples of the signal drops the first row of the features and leaves the others unchanged; with pre-emphasis the new first row is excepted.", "quantifier": "every signal and configuration for which both calls return", "why_tests_cant": "relates the outcomes of two calls for all signals", "anchors": ["spafe/features/mfcc.py:mfcc", "spafe/features/lfcc.py:lfcc", "spafe/features/gfcc.py:gfcc", "spafe/features/lpc.py:lpc"]}
{"id": "C80", "title": "psrcc turns silence into non-finite numbers", "statement": "For every all-zero signal and every negative exponent (the default is -1/7) every psrcc coefficient is infinite or NaN: the line that replaces inf by the maximum of the features replaces it by inf.", "quantifier": "every length, configuration and negative gamma", "why_tests_cant": "silence is a single input per length; the claim is for all configurations", "anchors": ["spafe/features/psrcc.py:psrcc"]}
{"id": "C81", "title": "LPC synthesis filters are stable", "statement": "Every complex root of a[0]z^p+...+a[p] for a predictor row a returned by lpc has modulus strictly below 1.", "quantifier": "every finite signal, order >= 2, row and root", "why_tests_cant": "a statement about all roots of all predictors", "anchors": ["spafe/features/lpc.py:lpc", "spafe/features/lpc.py:__lpc_helper"]}
{"id": "C82", "title": "lpc never returns a non-finite number", "statement": "With order>=2, lpc either raises or returns, for every frame, a row of exactly order finite coefficients and one finite error; a frame with an inf or NaN sample raises ValueError. lpcc returns one row of order coefficients per frame.", "quantifier": "every signal (also non-finite), configuration and order >= 2", "why_tests_cant": "all inputs including special values", "anchors": ["spafe/features/lpc.py:lpc", "spafe/features/lpc.py:lpcc", "spafe/features/pncc.py:pncc", "spafe/features/pncc.py:asymmetric_lowpass_filtering", "spafe/features/pncc.py:temporal_masking", "spafe/features/pncc.py:weight_smoothing", "spafe/features/pncc.py:mean_power_normalization", "spafe/utils/filters.py:rasta_filter", "spafe/features/rplp.py:rplp", "spafe/features/rplp.py:plp", "spafe/frequencies/fundamental_frequencies.py:compute_yin", "spafe/frequencies/dominant_frequencies.py:get_dominant_frequencies"]}
{"id": "C83", "title": "lpcc under gain", "statement": "Without lifter and normalisation, lpcc of a signal without silent frames is per frame the logarithm of the error value followed by the converted predictor; multiplying the signal by g<>0 adds 2 ln|g| to coefficient 0 and changes no other coefficient (if no reported error is 0).", "quantifier": "every finite signal and gain", "why_tests_cant": "relational, all gains", "anchors": ["spafe/features/lpc.py:lpcc"]}
{"id": "C84", "title": "YIN reports periodic windows as voiced", "statement": "If a window is periodic with a period p among the searched lags and not constant, its pitch is fs/q with tau_min<=q<=p for every positive threshold.", "quantifier": "every signal, window, period and threshold", "why_tests_cant": "all periodic signals", "anchors": ["spafe/frequencies/fundamental_frequencies.py:compute_yin", "spafe/frequencies/fundamental_frequencies.py:get_pitch"]}
{"id": "C85", "title": "YIN ignores gain, polarity and offset", "statement": "compute_yin returns the same four vectors for g*x+c as for x, for every g<>0 and c and all parameters.", "quantifier": "all finite signals, gains, offsets, parameters", "why_tests_cant": "relational over all gains and offsets", "anchors": ["spafe/frequencies/fundamental_frequencies.py:compute_yin"]}
{"id": "C86", "title": "YIN on constant windows", "statement": "A window whose samples are all equal (silence included) has pitch 0, harmonic rate 1 and argmin value 0, although its normalised difference curve is NaN at every lag but 0.", "quantifier": "every signal and configuration with at least two lags", "why_tests_cant": "depends on how NaN is ordered by three different functions", "anchors": ["spafe/frequencies/fundamental_frequencies.py:compute_yin"]}
{"id": "C87", "title": "YIN moves with the signal", "statement": "Dropping the first hop samples drops the first pitch, harmonic rate and argmin and changes no other.", "quantifier": "every finite signal and configuration", "why_tests_cant": "relational", "anchors": ["spafe/frequencies/fundamental_frequencies.py:compute_yin"]}
{"id": "C88", "title": "dominant frequencies ignore gain and see the filtered signal", "statement": "get_dominant_frequencies returns the same list for g*x as for x for every g<>0, with and without butter_filter; with the filter it returns what it returns for the response of the recursive filter with the given coefficients from rest.", "quantifier": "all finite signals, gains, filters, parameters", "why_tests_cant": "relational over all gains and filters", "anchors": ["spafe/frequencies/dominant_frequencies.py:get_dominant_frequencies"]}
{"id": "C89", "title": "dominant frequencies of signals with a known answer", "statement": "A signal without negative samples has dominant frequency 0 in every frame, whatever tone it carries; a tone at half the sampling rate gives an empty list with the default parameters and every even nfft.", "quantifier": "every signal, frame size, nfft", "why_tests_cant": "all signals of a class", "anchors": ["spafe/frequencies/dominant_frequencies.py:get_dominant_frequencies"]}
{"id": "C90", "title": "dominant frequency of a frame with a NaN", "statement": "A frame with a NaN sample among the first nfft is reported as 0 Hz instead of NaN.", "quantifier": "every signal and frame", "why_tests_cant": "NaN inputs", "anchors": ["spafe/frequencies/dominant_frequencies.py:get_dominant_frequencies"]}
{"id": "C91", "title": "the frequency axis of the spectral statistics is folded", "statement": "The centroid of a spectrum of M bins in which only bin k is non-zero is min(k,M-k)*fs/M, so bins k and M-k are indistinguishable; for the spectra extract_feats passes (M=nfft//2+1, nfft>=3) it is the true frequency k*fs/nfft only for k=0.", "quantifier": "every bin, size and sampling rate", "why_tests_cant": "all bins of all sizes; needs an integrality argument", "anchors": ["spafe/features/spfeats.py:spectral_centroid", "spafe/features/spfeats.py:extract_feats"]}
{"id": "C92", "title": "skewness and kurtosis of a spectrum", "statement": "They are the central moment of order 3 (4) over the cube (fourth power) of the second moment about zero: invariant to a gain, kurtosis non-negative, but divided by c^3 (c^4) when the sampling rate is multiplied by c; NaN when nothing is outside bin 0.", "quantifier": "every spectrum and rate", "why_tests_cant": "relational over all spectra", "anchors": ["spafe/features/spfeats.py:spectral_skewness", "spafe/features/spfeats.py:spectral_kurtosis"]}
{"id": "C93", "title": "spectral entropy", "statement": "For non-zero magnitudes that sum to 1 the entropy is in [0,1]; it is NaN as soon as one bin is zero; extract_feats does not normalise, so a gain g turns h into |g|*h - |g|*ln|g|*sum/ln M, and a flat spectrum of magnitude above 1 has a negative entropy.", "quantifier": "every spectrum and gain", "why_tests_cant": "Gibbs' inequality for all lengths", "anchors": ["spafe/features/spfeats.py:spectral_entropy"]}
{"id": "C94", "title": "spectral spread is an array", "statement": "spectral_spread returns one non-negative value per bin, proportional to the square root of its magnitude, whose squares sum to the squared sum of (frequency - centroid) over the bins; a gain does not change it.", "quantifier": "every non-silent spectrum", "why_tests_cant": "all spectra", "anchors": ["spafe/features/spfeats.py:spectral_spread"]}
{"id": "C95", "title": "mean, variance and rms of extract_feats", "statement": "The variance is mean |X|^2 - |mean X|^2 >= 0 and std its square root; the value stored as rms is a complex square root of mean X^2 with non-negative real part, of absolute value at most the root mean square of |X|, and changes when the signal is delayed.", "quantifier": "every finite signal and nfft", "why_tests_cant": "all signals", "anchors": ["spafe/features/spfeats.py:extract_feats"]}
{"id": "C96", "title": "extract_feats and level", "statement": "extract_feats returns for every finite signal and nfft>=1 and raises ValueError for nfft<1; a gain g leaves centroid, skewness, kurtosis, spread and flatness unchanged, scales flux and std by |g|, variance by g^2, mean and rolloff by g; silence gives NaN for the ratios and 0 for the rest.", "quantifier": "every finite signal, rate, nfft, gain", "why_tests_cant": "relational over all signals", "anchors": ["spafe/features/spfeats.py:extract_feats"]}
{"id": "C97", "title": "the FFT method computes Brown's transform", "statement": "With spectral_threshold<=0 every entry of the constant-Q transform equals (1/N) sum_t w(t) x(s+t) exp(-2 pi i f t/fs) over the N=ceil(Q fs/f) samples from s=int((nfft-N)/2) on of the frame zero-padded or cropped to nfft; hence every row answers a steady tone of its own frequency with the mean of its window.", "quantifier": "all frames and configurations", "why_tests_cant": "an identity between two algorithms for all inputs", "anchors": ["spafe/utils/spectral.py:compute_constant_qtransform"]}
{"id": "C98", "title": "what the spectral threshold can change", "statement": "With a threshold thr>=0 no entry of the constant-Q transform differs from Brown's transform by more than thr times the Euclidean norm of the frame (cropped to nfft).", "quantifier": "all frames, thresholds and configurations", "why_tests_cant": "an error bound over all signals", "anchors": ["spafe/utils/spectral.py:compute_constant_qtransform"]}
{"id": "C99", "title": "shape and level of cqt_spectrogram and cqcc", "statement": "cqt_spectrogram raises ParameterError for high_freq>fs/2, otherwise has one row per usable frequency and one column per frame and scales with the signal. cqcc has int(frames*resampling_ratio) rows (the frames are resampled, not the frequencies) and min(num_ceps, usable frequencies) columns; ValueError when that leaves no row. For the default DCT a gain g adds 2 ln|g| sqrt(P) to coefficient 0 and nothing to the others when no entry of the transform is 0.", "quantifier": "every finite signal, gain and configuration with a usable frequency", "why_tests_cant": "relational over all signals", "anchors": ["spafe/features/cqcc.py:cqt_spectrogram", "spafe/features/cqcc.py:cqcc"]}
{"id": "C100", "title": "the resampling step of cqcc", "statement": "Resampling m rows to num rows is a fixed linear map of the rows; it keeps constants, the mean over the rows, and every harmonic below half of min(m,num) (same amplitude, phase and number of periods); for num=r*m output row r*t is input row t, so num=m changes nothing.", "quantifier": "all matrices and sizes", "why_tests_cant": "all inputs and sizes", "anchors": ["spafe/features/cqcc.py:cqcc"]}
{"id": "C101", "title": "pncc of audible signals is finite", "statement": "pncc (no lifter, no normalisation, a non-negative bank of nfilts rows) of a finite signal whose medium-time power is positive in every frame and every channel but the first returns finite values only.", "quantifier": "every such signal and configuration", "why_tests_cant": "needs positivity through seven stages and any number of frames", "anchors": ["spafe/features/pncc.py:pncc"]}
{"id": "C102", "title": "one silent channel ruins pncc from there on", "statement": "If one channel other than the first has no power in the five frames around frame m, row m of pncc is NaN, and for m>=1 so is every later row, whatever the signal does afterwards.", "quantifier": "every signal, frame, channel", "why_tests_cant": "0/0 propagates through a recursion of unbounded length", "anchors": ["spafe/features/pncc.py:pncc"]}
{"id": "C103", "title": "pncc and gain", "statement": "For g<>0 every row of pncc(g*x) is a multiple of the row of pncc(x); the factor is |g|^(power/15) in the first row and between 1 and that value in the others, so the mean power normalisation does not remove the gain.", "quantifier": "all audible signals, gains and configurations", "why_tests_cant": "relational over all signals and gains", "anchors": ["spafe/features/pncc.py:pncc"]}
{"id": "C104", "title": "look-ahead of pncc", "statement": "Row m of pncc depends only on the samples up to the end of frame m+2: two signals (of any lengths with more than m+2 frames) that agree there have the same rows 0..m.", "quantifier": "all pairs of signals", "why_tests_cant": "relational over all signals", "anchors": ["spafe/features/pncc.py:pncc"]}
{"id": "C105", "title": "pncc is bounded whatever the level", "statement": "With as many bank rows n as nfilts, every coefficient of an audible signal from the second frame on is at most sqrt(n)*(1000 n)^(1/15) in absolute value.", "quantifier": "all audible signals", "why_tests_cant": "a bound over all signals", "anchors": ["spafe/features/pncc.py:pncc"]}
{"id": "C106", "title": "pncc and banks of another size", "statement": "With a supplied bank of fewer rows than nfilts pncc raises IndexError, with at least nfilts+6 rows ZeroDivisionError, for every signal.", "quantifier": "every signal and bank", "why_tests_cant": "all sizes", "anchors": ["spafe/features/pncc.py:pncc"]}
{"id": "C107", "title": "what plp and rplp compute", "statement": "When every frame has energy in some channel (plp), or in every one of five or more channels (rplp), row i is the coded cepstrum of the least-squares predictor of order order-1 of the modulus of the nfft-point inverse DFT of the loudnesses of frame i, coefficient 0 the log of the reported error; in rplp the log energies first pass the RASTA recursion along the channels.", "quantifier": "every finite signal and configuration", "why_tests_cant": "closed form for all inputs, least-squares optimality", "anchors": ["spafe/features/rplp.py:plp", "spafe/features/rplp.py:rplp"]}
{"id": "C108", "title": "plp ignores polarity and the order of the filters", "statement": "plp(-x)=plp(x) and rplp(-x)=rplp(x), and reversing the rows of a supplied bank (of at most nfft rows) does not change plp: results and exceptions are the same.", "quantifier": "every finite signal, bank and configuration", "why_tests_cant": "relational over all inputs", "anchors": ["spafe/features/rplp.py:plp", "spafe/features/rplp.py:rplp"]}
{"id": "C109", "title": "rplp does not depend on the level", "statement": "For g<>0 and a signal with energy in every one of five or more channels of every frame, rplp(g*x)=rplp(x).", "quantifier": "all such signals and gains", "why_tests_cant": "relational over all signals and gains", "anchors": ["spafe/features/rplp.py:rplp"]}
{"id": "C110", "title": "silence stops plp and rplp", "statement": "plp (order>=2) raises LinAlgError when a frame has no energy in any channel; rplp raises ValueError when a single channel other than the last two has no energy in a single frame, whatever the rest of the signal is. In particular the two functions raise different errors for an all-zero signal.", "quantifier": "every signal and configuration with 5..nfft channels", "why_tests_cant": "needs all signals; the infinity has to be followed through a recursive filter", "anchors": ["spafe/features/rplp.py:plp", "spafe/features/rplp.py:rplp"]}
{"id": "C111", "title": "rows of plp and rplp depend on their own frame", "statement": "A row of plp (and of rplp when all channel energies are positive) is a function of the samples of its frame (and the sample before with pre-emphasis): signals that agree there share the row, wherever the frame is. So rplp does not filter along time.", "quantifier": "all pairs of finite signals", "why_tests_cant": "relational over all signals", "anchors": ["spafe/features/rplp.py:plp", "spafe/features/rplp.py:rplp"]}
{"id": "C112", "title": "shape of plp and rplp", "statement": "Whatever the signal (inf and NaN included), when plp or rplp with order>=2 returns, there is one row per frame with exactly order entries, and without lifter and normalisation all entries are finite.", "quantifier": "every signal and argument", "why_tests_cant": "all inputs, special values included", "anchors": ["spafe/features/rplp.py:plp", "spafe/features/rplp.py:rplp"]}
{"id": "C113", "title": "plp cannot tell which channel is excited", "statement": "Coefficients 1..order-1 of a frame with energy in exactly one channel are the same whatever the channel, the level, the signal and the bank; they depend on nfft and order only.", "quantifier": "all signals, banks and channels", "why_tests_cant": "a constant over all inputs", "anchors": ["spafe/features/rplp.py:plp"]}
{"id": "C114", "title": "rplp removes a fixed channel colouration", "statement": "Multiplying one channel by a constant in all frames leaves the cepstral coefficients of rplp unchanged (refuted: the filter runs along the channels).", "quantifier": "every configuration and signal with energy in all channels", "why_tests_cant": "relational over all signals and colourations; one counterexample settles it negatively", "anchors": ["spafe/features/rplp.py:rplp"]}
{"id": "C115", "title": "laws of the dB image", "statement": "The dB image is a non-decreasing function of the magnitude, does not change when the spectrogram is scaled (above the 1e-10 floor), is constant for dbf<=0, and is NaN everywhere when a single entry is NaN.", "quantifier": "all spectrograms and scale factors", "why_tests_cant": "relational over all inputs", "anchors": ["spafe/utils/vis.py:show_spectrogram"]}
{"id": "C116", "title": "tick labels of show_fbanks", "statement": "tick_function never raises; for ticks from -200 Hz on every label is within 0.05 of the mel, Bark or ERB value of the tick (plain Hz for any other fb_type) and labels do not decrease with the tick; on the mel axis a tick left of -700 Hz is labelled nan.", "quantifier": "all tick lists and names", "why_tests_cant": "all inputs", "anchors": ["spafe/utils/vis.py:tick_function"]}
{"id": "C117", "title": "lpc of quiet integer samples", "statement": "For an array of a signed integer type with b bits (int16 as read from a WAV file) whose frames all have a sum of squares below 2^(b-1), lpc and lpcc without pre-emphasis return what they return for the same samples as floats. With pre-emphasis they do so for every integer type and any loudness.", "quantifier": "every integer signal with quiet frames, every order, lifter, normalisation and configuration", "why_tests_cant": "all signals; the bound is sharp only over all of them", "anchors": ["spafe/features/lpc.py:lpc", "spafe/features/lpc.py:lpcc", "spafe/features/lpc.py:__lpc_helper"]}
{"id": "C118", "title": "lpc of integer samples wraps around", "statement": "Without pre-emphasis lpc and lpcc compute the autocorrelation of an integer array in the type of the array, so louder frames are solved with autocorrelations reduced modulo 2^bits: samples that are multiples of 2^(bits/2) (8-bit audio shifted into int16, 8-bit silence) always raise LinAlgError, and predictors can be unstable. That integers and floats give the same result is refuted.", "quantifier": "every integer signal and type; refutations by a witness", "why_tests_cant": "all signals and integer types; overflow depends on the level of the recording", "anchors": ["spafe/features/lpc.py:lpc", "spafe/features/lpc.py:lpcc", "spafe/features/lpc.py:__lpc_helper"]}
{"id": "C119", "title": "band energies in floating point", "statement": "Computed with rounding, in any order of summation and with or without fused multiply-add, an entry of a spectrogram with a non-negative bank is never negative and, without underflow, within a factor (1-u)^(n+3)..(1+u)^(n+3) of the exact bank-weighted power of the same n magnitudes (u=2^-53 for float64), so its logarithm is off by at most about (n+3)u: 3e-14 for nfft=512.", "quantifier": "all magnitudes, banks, summation orders and roundings of relative error u", "why_tests_cant": "an error bound over all inputs and all evaluation orders that numpy or BLAS may choose", "anchors": ["spafe/features/mfcc.py:mel_spectrogram", "spafe/features/lfcc.py:linear_spectrogram", "spafe/features/gfcc.py:erb_spectrogram", "spafe/features/bfcc.py:bark_spectrogram"]}
{"id": "C120", "title": "polarity and power-of-two gain are exact in floating point", "statement": "Whatever FFT algorithm, window and summation order are used, the band energies of -x have the same bits as those of x, and those of 2^k*x are exactly 4^k times those of x (no overflow or underflow).", "quantifier": "all signals, straight-line FFT programs and summation orders", "why_tests_cant": "bitwise equality over all inputs and implementations", "anchors": ["spafe/features/mfcc.py:mel_spectrogram"]}
{"id": "C121", "title": "rounding error of the linear steps", "statement": "Any straight-line evaluation of a linear step (pre-emphasis, window, FFT, DCT, deltas) differs from its exact value by at most ((1+u)^d-1) times the sum of the absolute terms plus an underflow term, d being the number of roundings an input goes through; for pre-emphasis d=2.", "quantifier": "all programs and inputs", "why_tests_cant": "error bound over all inputs and evaluation orders", "anchors": ["spafe/utils/preprocessing.py:pre_emphasis", "spafe/utils/cepstral.py:deltas"]}
{"id": "C122", "title": "numpy's windows in binary64", "statement": "The hanning, hamming, bartlett and blackman windows computed in floating point are bit for bit symmetric; hanning and bartlett stay in [0,1], hamming in [0.0799,1]; the first and last value of hanning is exactly 0, of blackman exactly -2^-56 for every length, so blackman is not non-negative.", "quantifier": "every length and index; every library cosine for the ranges", "why_tests_cant": "all lengths; the sign of the last bit decides", "anchors": ["spafe/utils/preprocessing.py:windowing"]}
{"id": "C123", "title": "constant columns in binary64", "statement": "normalize_ceps with mvn turns a constant column of whole numbers (n*|v|<2^53) into NaN in any summation order, but not every constant column: three times 0.1 becomes -1,-1,-1.", "quantifier": "all sizes, values and summation orders; refutation by a witness", "why_tests_cant": "depends on rounding of the mean", "anchors": ["spafe/utils/cepstral.py:normalize_ceps"]}
{"id": "C124", "title": "mean subtraction in floating point", "statement": "After ms the mean left in a column is at most ((1+u)^(n+2)-1+u) times the mean absolute value of the column, in any summation order; it is not always zero.", "quantifier": "all columns, sizes and summation orders", "why_tests_cant": "error bound over all inputs", "anchors": ["spafe/utils/cepstral.py:normalize_ceps"]}
{"id": "C125", "title": "features of a reversed recording", "statement": "Without pre-emphasis and when the frames tile the signal, the cepstral extractors, the spectrograms, lpc and lpcc give for the reversed signal the same rows in reverse order; with pre-emphasis this is refuted.", "quantifier": "every finite signal and configuration; refutation by a witness", "why_tests_cant": "relational over all signals", "anchors": ["spafe/features/mfcc.py:mfcc", "spafe/features/lfcc.py:lfcc", "spafe/features/bfcc.py:bfcc", "spafe/features/gfcc.py:gfcc", "spafe/features/ngcc.py:ngcc", "spafe/features/msrcc.py:msrcc", "spafe/features/lpc.py:lpc", "spafe/features/lpc.py:lpcc"]}
{"id": "C126", "title": "changing the hop only selects rows", "statement": "Two calls that differ in win_hop only give equal rows for frames that start at the same sample; a hop k times as long returns exactly rows 0, k, 2k, ... (no normalisation).", "quantifier": "every signal (inf and NaN included), extractor and configuration", "why_tests_cant": "relational over all signals", "anchors": ["spafe/features/mfcc.py:mfcc", "spafe/features/lfcc.py:lfcc", "spafe/features/bfcc.py:bfcc", "spafe/features/gfcc.py:gfcc", "spafe/features/ngcc.py:ngcc", "spafe/features/msrcc.py:msrcc"]}
{"id": "C127", "title": "a NaN sample", "statement": "Every value of every row whose frame contains a NaN sample is NaN, and with a normalisation the whole matrix is; no sample value makes an extractor raise, so success depends on the configuration and the length only.", "quantifier": "every signal, special values included", "why_tests_cant": "all inputs, special values included", "anchors": ["spafe/features/mfcc.py:mfcc", "spafe/features/lfcc.py:lfcc", "spafe/features/bfcc.py:bfcc", "spafe/features/gfcc.py:gfcc", "spafe/features/ngcc.py:ngcc", "spafe/features/msrcc.py:msrcc"]}
{"id": "C128", "title": "band edges of the filter banks", "statement": "low_freq and high_freq have no effect on lfcc and linear_spectrogram, because the matrix of linear_filter_banks is the same for every band; the mel bank does depend on the band, but with an explicit high_freq not on fs.", "quantifier": "every signal, band and configuration", "why_tests_cant": "relational over all bands", "anchors": ["spafe/fbanks/linear_fbanks.py:linear_filter_banks", "spafe/fbanks/mel_fbanks.py:mel_filter_banks", "spafe/features/lfcc.py:lfcc"]}
{"id": "C129", "title": "a faint sound counts as quieter than silence", "statement": "For mfcc, imfcc, lfcc and ngcc and every signal with energy in all bands there is a level below which the first coefficient of the attenuated signal is smaller than that of digital silence.", "quantifier": "every such signal and configuration", "why_tests_cant": "exists-forall over gains", "anchors": ["spafe/features/mfcc.py:mfcc", "spafe/features/lfcc.py:lfcc", "spafe/utils/preprocessing.py:zero_handling"]}
{"id": "C130", "title": "distances between rows of cepstra", "statement": "The Euclidean distance of two rows is at most that of the compressed band energies, and equal to it when all coefficients are kept, so then two rows are equal exactly when all compressed band energies are.", "quantifier": "all pairs of signals, frames, DCT types", "why_tests_cant": "relational over all pairs", "anchors": ["spafe/features/mfcc.py:mfcc", "spafe/features/lfcc.py:lfcc", "spafe/features/bfcc.py:bfcc", "spafe/features/gfcc.py:gfcc", "spafe/features/ngcc.py:ngcc", "spafe/features/msrcc.py:msrcc"]}
{"id": "C131", "title": "zero padding", "statement": "With nfft multiplied by m, bin m*k of the magnitude spectrogram equals bin k before, for frames that fit into nfft.", "quantifier": "every finite signal, m and configuration", "why_tests_cant": "all signals and sizes", "anchors": ["spafe/features/mfcc.py:mel_spectrogram"]}
{"id": "C132", "title": "normalisation does not see the order of the frames", "statement": "Permuting the rows of a matrix permutes the rows of normalize_ceps; equal rows stay equal.", "quantifier": "every matrix (inf and NaN included), permutation and method", "why_tests_cant": "all matrices and permutations", "anchors": ["spafe/utils/cepstral.py:normalize_ceps"]}
{"id": "C133", "title": "calls do not change the arrays they are given", "statement": "Whatever views the caller passes (overlapping, reversed, the same array twice), a call that returns or raises leaves every existing buffer unchanged, returns what the same call on the values returns or raises the same exception, and puts each result into a new buffer of its own.", "quantifier": "every memory content, set of views, argument and outcome", "why_tests_cant": "aliasing of arguments: all views and all exits of the call", "anchors": ["spafe/utils/preprocessing.py:pre_emphasis", "spafe/utils/preprocessing.py:windowing", "spafe/utils/cepstral.py:normalize_ceps", "spafe/utils/cepstral.py:deltas", "spafe/features/mfcc.py:mfcc", "spafe/features/lfcc.py:lfcc", "spafe/features/bfcc.py:bfcc", "spafe/features/gfcc.py:gfcc", "spafe/features/ngcc.py:ngcc", "spafe/features/msrcc.py:msrcc", "spafe/features/psrcc.py:psrcc", "spafe/features/lpc.py:lpc", "spafe/features/lpc.py:lpcc", "spafe/features/cqcc.py:cqt_spectrogram", "spafe/features/cqcc.py:cqcc", "spafe/features/spfeats.py:extract_feats"]}
{"id": "C134", "title": "read-only arrays", "statement": "Every call gives the same outcome when all arrays that existed before it are read-only (memory maps, writeable=False).", "quantifier": "every memory content, set of views and argument", "why_tests_cant": "all inputs and all paths, also those that raise", "anchors": ["spafe/utils/preprocessing.py:pre_emphasis", "spafe/utils/preprocessing.py:windowing", "spafe/utils/cepstral.py:normalize_ceps", "spafe/utils/cepstral.py:deltas", "spafe/features/mfcc.py:mfcc", "spafe/features/lfcc.py:lfcc", "spafe/features/bfcc.py:bfcc", "spafe/features/gfcc.py:gfcc", "spafe/features/ngcc.py:ngcc", "spafe/features/msrcc.py:msrcc", "spafe/features/psrcc.py:psrcc", "spafe/features/lpc.py:lpc", "spafe/features/lpc.py:lpcc", "spafe/features/cqcc.py:cqt_spectrogram", "spafe/features/cqcc.py:cqcc", "spafe/features/spfeats.py:extract_feats"]}
{"id": "C135", "title": "histories of calls and assignments", "statement": "Over any sequence of creating arrays, assigning to entries, calling functions and catching exceptions, every array shows what it would if arrays were values; so repeating a call gives the same result whatever was done to earlier results.", "quantifier": "every history of any length", "why_tests_cant": "unbounded histories with aliasing", "anchors": ["spafe/utils/preprocessing.py:pre_emphasis", "spafe/utils/preprocessing.py:windowing", "spafe/utils/cepstral.py:normalize_ceps", "spafe/utils/cepstral.py:deltas", "spafe/features/mfcc.py:mfcc", "spafe/features/lfcc.py:lfcc", "spafe/features/bfcc.py:bfcc", "spafe/features/gfcc.py:gfcc", "spafe/features/ngcc.py:ngcc", "spafe/features/msrcc.py:msrcc", "spafe/features/psrcc.py:psrcc", "spafe/features/lpc.py:lpc", "spafe/features/lpc.py:lpcc", "spafe/features/cqcc.py:cqt_spectrogram", "spafe/features/cqcc.py:cqcc", "spafe/features/spfeats.py:extract_feats"]}
{"id": "C136", "title": "threads sharing arrays", "statement": "Any number of threads that share arrays they only read, each running any history of calls on them and on its own results, interleaved at single loads and stores in any way: the shared arrays never change, a thread that finishes has the results it has when run alone, and every thread finishes once scheduled often enough.", "quantifier": "every number of threads, history and schedule", "why_tests_cant": "all schedules", "anchors": ["spafe/utils/preprocessing.py:pre_emphasis", "spafe/utils/preprocessing.py:windowing", "spafe/utils/cepstral.py:normalize_ceps", "spafe/utils/cepstral.py:deltas", "spafe/features/mfcc.py:mfcc", "spafe/features/lfcc.py:lfcc", "spafe/features/bfcc.py:bfcc", "spafe/features/gfcc.py:gfcc", "spafe/features/ngcc.py:ngcc", "spafe/features/msrcc.py:msrcc", "spafe/features/psrcc.py:psrcc", "spafe/features/lpc.py:lpc", "spafe/features/lpc.py:lpcc", "spafe/features/cqcc.py:cqt_spectrogram", "spafe/features/cqcc.py:cqcc", "spafe/features/spfeats.py:extract_feats"]}
{"id": "C137", "title": "overlapping frames share their samples", "statement": "An assignment to frame i, position j of the result of framing changes exactly the entries (i',j') with i'*hop+j' = i*hop+j, and neither the signal nor any other array. That frames are values is refuted whenever the hop is shorter than the frame.", "quantifier": "every signal, configuration and position", "why_tests_cant": "all signals and positions; aliasing", "anchors": ["spafe/utils/preprocessing.py:framing", "spafe/utils/preprocessing.py:stride_trick"]}
{"id": "C138", "title": "lifter_ceps may return its argument", "statement": "For lift 0 or above 10 (22 is a usual choice) lifter_ceps returns the array it was given: an assignment to the result changes the argument. That results are independent of arguments is refuted.", "quantifier": "every matrix, position and such lift", "why_tests_cant": "all inputs; aliasing", "anchors": ["spafe/utils/cepstral.py:lifter_ceps"]}
{"id": "C139", "title": "signals of the documented shape Nx1", "statement": "The docstrings ask for a mono signal (Nx1). An Nx1 array is framed like the 1-D array, but pre-emphasis leaves it unchanged: every spectrogram, cepstral extractor and lpc gives for it, whatever pre_emph and pre_emph_coeff say, exactly the result of the 1-D signal with pre_emph=False. The frames equal those of the 1-D signal with pre-emphasis exactly when coeff*x[t]=0 for all covered samples but the last.", "quantifier": "every signal (inf and NaN included), extractor and configuration", "why_tests_cant": "both calls succeed and give plausible numbers; relational over all signals", "anchors": ["spafe/utils/preprocessing.py:framing", "spafe/utils/preprocessing.py:stride_trick", "spafe/utils/preprocessing.py:pre_emphasis", "spafe/features/mfcc.py:mfcc", "spafe/features/lpc.py:lpc"]}
{"id": "C140", "title": "signals with several channels", "statement": "For N rows of c samples stored row after row the frames view either shows the first channel alone or reaches outside of the array, decided by whether ((N*c-L)//hop)*hop+L <= N; for c >= 2 and hop <= L <= N*c it always reaches outside, so no stereo recording gives a result that is determined by its samples. With one row per channel (1xN, 2xN) and frames longer than the number of channels it always reaches outside. Stored channel after channel the channels are joined end to end and frames run across the joint. Pre-emphasis subtracts the channel before, not the sample before.", "quantifier": "every array, layout, frame length and hop", "why_tests_cant": "out-of-bounds strided reads usually return garbage instead of failing", "anchors": ["spafe/utils/preprocessing.py:framing", "spafe/utils/preprocessing.py:stride_trick", "spafe/utils/preprocessing.py:pre_emphasis"]}
{"id": "C141", "title": "the recursions of PNCC do not accumulate rounding errors", "statement": "The asymmetric low-pass filter does not amplify differences of its inputs, for any number of frames. Computed with rounding it stays within a fixed distance of its exact value for recordings of any length (2^-39 of the largest input in binary64 with coefficients up to 0.9995), even where rounding flips its comparison; filter and noise suppression never give negative numbers; entry m of mean power normalisation is right up to about 2m+L+6 factors 1+-u.", "quantifier": "every input, number of frames, coefficient pair and accurate rounding", "why_tests_cant": "recordings of unbounded length; rounding may flip branches", "anchors": ["spafe/features/pncc.py:asymmetric_lowpass_filtering", "spafe/features/pncc.py:asymmetric_noise_suppression_with_temporal_masking", "spafe/features/pncc.py:mean_power_normalization"]}
{"id": "C142", "title": "temporal masking jumps", "statement": "Small changes of the signal give small changes of the features: refuted for temporal_masking (jump lam_t-myu_t times the peak), for the noise suppression and for pncc itself, where a fixed difference of a coefficient is reached by arbitrarily close signals. Away from the switching point the masked value computed with rounding is within (u*B+eta)/(1-lam_t-u) of the exact one.", "quantifier": "every distance d>0; every input away from ties", "why_tests_cant": "forall-exists over distances; a test with a tolerance misses the tie", "anchors": ["spafe/features/pncc.py:temporal_masking", "spafe/features/pncc.py:asymmetric_noise_suppression_with_temporal_masking", "spafe/features/pncc.py:pncc"]}
{"id": "C143", "title": "mel and linear filter banks in floating point: range of the entries", "statement": "Computed with rounding, for every band, number of filters and columns and scale: the points of every filter are in order and every entry is a number in [0,1] that is zero outside the filter and the scale factor at its centre, except in a column equal to both centre and upper point of a filter, where it is NaN. Never NaN is refuted in binary64 by a band of two neighbouring numbers.", "quantifier": "all bands, sizes, scales, columns, monotone roundings; every library log10 and every non-decreasing power function", "why_tests_cant": "rounding could put points out of order for some band; the mask idiom a == b then selects every column in between", "anchors": ["spafe/fbanks/mel_fbanks.py:mel_filter_banks", "spafe/fbanks/mel_fbanks.py:mel_filter_banks_helper", "spafe/fbanks/linear_fbanks.py:linear_filter_banks"]}
{"id": "C144", "title": "mel and linear filter banks in floating point: accuracy", "statement": "If neighbouring points are d apart and the error bound e of points and columns is below d/4, every entry computed with rounding is a number within about 4e/d of the triangle of the exact bank: for the linear bank in binary64 high*(n+1)/(high-low)*2^-47, for the mel bank up to 100 kHz 4*(700+high)/(2^45 d).", "quantifier": "all bands, sizes, scales, columns and roundings; all library functions within 8 units of rounding", "why_tests_cant": "an error bound over all bands and sizes, across the kinks of the triangle", "anchors": ["spafe/fbanks/mel_fbanks.py:mel_filter_banks", "spafe/fbanks/linear_fbanks.py:linear_filter_banks"]}
{"id": "C145", "title": "hz2mel and mel2hz in floating point", "statement": "mel2hz(hz2mel(f)) differs from f by at most a few units of rounding times (700+f): (700+f)/2^46 up to 100 kHz. A bound relative to f is refuted: in binary64 every f up to 700/2^54 comes back as 0.", "quantifier": "all frequencies, both approaches, all accurate library functions", "why_tests_cant": "an error bound over all frequencies", "anchors": ["spafe/utils/converters.py:hz2mel", "spafe/utils/converters.py:mel2hz"]}
{"id": "C146", "title": "the YIN difference function in floating point", "statement": "Every value of compute_difference is within (6(L+6)u+2*delta) times the energy of the window of the exact squared difference, where delta is the relative error of fftconvolve; for whole-number samples with energy below 2^51 and a correctly rounded convolution it is exact. Never negative is refuted in binary64 even with a correctly rounded convolution.", "quantifier": "all windows, lags, accurate roundings and convolutions", "why_tests_cant": "an error bound over all inputs; the cancelling form is not the sum of squares it stands for", "anchors": ["spafe/frequencies/fundamental_frequencies.py:compute_difference"]}
{"id": "C147", "title": "decisions of compute_yin in floating point", "statement": "A window of period p is reported as voiced when its differences stand out of the rounding noise, with a lag of at most p if the next difference does too. Whenever every comparison that decides the lag holds by more than 6*tau*(u+r)*(1+c)+eta (r the relative noise), the lag, or the absence of one, is that of exact arithmetic and the harmonic rate is within that margin.", "quantifier": "all signals, parameters, accurate roundings and convolutions", "why_tests_cant": "discrete decisions on rounded numbers, over all signals", "anchors": ["spafe/frequencies/fundamental_frequencies.py:compute_yin", "spafe/frequencies/fundamental_frequencies.py:compute_cmnd", "spafe/frequencies/fundamental_frequencies.py:get_pitch"]}
{"id": "C148", "title": "windows without variation in floating point", "statement": "A silent window, and a constant window of whole numbers, has pitch 0, harmonic rate 1 and argmin value 0. For every constant signal this is refuted in binary64: at 0.1 a constant signal of any length is reported as voiced in every window.", "quantifier": "all signals and parameters; refutation for all lengths", "why_tests_cant": "the last bit of a cancelling difference decides", "anchors": ["spafe/frequencies/fundamental_frequencies.py:compute_yin"]}
{"id": "C149", "title": "gain, polarity and offset of compute_yin in floating point", "statement": "Multiplying the signal by a power of two (no underflow) or by -1 gives identical results, if the convolution commutes with that. Adding a constant changes nothing: refuted, silence and a constant have different pitches in binary64.", "quantifier": "all signals, parameters and convolutions; refutation by a witness of any length", "why_tests_cant": "bitwise equality over all inputs", "anchors": ["spafe/frequencies/fundamental_frequencies.py:compute_yin"]}
{"id": "C150", "title": "cut-off frequencies of the band-pass filter", "statement": "With butter_filter a cut-off frequency not strictly between 0 and fs/2 raises ValueError whatever the other arguments are; so the documented defaults (50, 3000 Hz) fail for every signal sampled at 6 kHz or less, and work for every integer rate above. Otherwise the result is that of the unfiltered function on the response of the filter.", "quantifier": "all signals, rates, cut-offs and arguments", "why_tests_cant": "all rates; the default works at the usual test rates", "anchors": ["spafe/frequencies/dominant_frequencies.py:get_dominant_frequencies"]}
{"id": "C151", "title": "the band-pass filter is stable", "statement": "For all cut-offs 0 < lower < upper < fs/2 (and any order) the response of the designed filter to a bounded signal of any length is bounded by a factor that depends on the design only, and it tends to 0 when the signal does.", "quantifier": "all cut-offs, all signals of any length", "why_tests_cant": "unbounded time, all designs (exact arithmetic)", "anchors": ["spafe/frequencies/dominant_frequencies.py:get_dominant_frequencies"]}
{"id": "C152", "title": "the band-pass filter is a Butterworth filter", "statement": "A tone leaves the filter, after the transient, as a tone of the same frequency with its amplitude multiplied by the Butterworth gain of order 6; that gain is in (0,1], at least 1/sqrt 2 exactly between the cut-offs and equal to 1/sqrt 2 at both.", "quantifier": "all tones, phases and cut-offs", "why_tests_cant": "limits over unbounded time, a continuum of frequencies", "anchors": ["spafe/frequencies/dominant_frequencies.py:get_dominant_frequencies"]}
{"id": "C153", "title": "the band-pass filter removes offsets", "statement": "The responses to a constant and to an alternating signal tend to 0; so adding a constant to a recording has no lasting effect on the signal that is analysed.", "quantifier": "all signals, constants and cut-offs", "why_tests_cant": "limits over unbounded time", "anchors": ["spafe/frequencies/dominant_frequencies.py:get_dominant_frequencies"]}
{"id": "C154", "title": "rounding error of cepstral coefficients, from the samples to the result", "statement": "If rounding noise is at most r^2 of the energy of every band of a frame, coefficient k of mfcc, imfcc, lfcc or ngcc computed in floating point differs from the exact one by at most g*((1+u)^d*(1+w)*(Y+b)-Y), with b the bound of a log band energy, Y the largest log band energy and g<=sqrt(nfilts); gfcc and msrcc have a bound relative to the largest compressed energy. The noise is bounded by a multiple of the squared largest sample. Without the condition on the noise the coefficient can be off by more than 30.", "quantifier": "every signal, configuration, rounding, order of the operations in FFT, bank and DCT, and accurate hypot, log and pow; existence for the last part", "why_tests_cant": "tests see one machine's FFT and BLAS and a few signals; the bound is for all of them, and quiet bands are rarely tested", "anchors": ["spafe/features/mfcc.py:mfcc", "spafe/features/mfcc.py:imfcc", "spafe/features/lfcc.py:lfcc", "spafe/features/ngcc.py:ngcc", "spafe/features/gfcc.py:gfcc", "spafe/features/msrcc.py:msrcc"]}
{"id": "C155", "title": "dominant frequencies in floating point", "statement": "The frequency computed in floating point for a frame is that of a bin whose exact magnitude is the largest up to a stated noise, and the frequency axis and the rounding to three decimals add at most a stated error. If the exact peak exceeds every other bin by more than the noise, the computed frequency is that of the exact answer. Inverting the signal changes nothing. A gain by a power of two changes nothing unless numbers underflow; in binary64 a signal that is quiet enough always gives 0 Hz, so independence of the volume fails there.", "quantifier": "every signal, frame, transform size, rounding, order of the operations in the FFT and accurate hypot; existence for the failure", "why_tests_cant": "a test sees one FFT and a few signals; which of two close peaks wins depends on rounding, and extremely quiet signals are not tested", "anchors": ["spafe/frequencies/dominant_frequencies.py:get_dominant_frequencies"]}
{"id": "C156", "title": "recordings below the resolution of binary64 look like silence", "statement": "When the spectrum of a frame is below 2^-541, all band energies are computed as 0 in binary64, and the coefficients of mfcc, imfcc, lfcc, ngcc, gfcc and msrcc for that frame are those of digital silence, whatever the frame contains.", "quantifier": "every frame, bank, transform program, DCT program and library log or pow", "why_tests_cant": "tests use recordings of ordinary level", "anchors": ["spafe/features/mfcc.py:mfcc", "spafe/features/lfcc.py:lfcc", "spafe/features/gfcc.py:gfcc", "spafe/features/ngcc.py:ngcc", "spafe/features/msrcc.py:msrcc"]}
{"id": "C157", "title": "no overflow and no NaN in float64 for signals below 2^400", "statement": "For every frame of finite float64 samples of size at most 2^400, every cepstral coefficient computed with IEEE 754 operations is finite, and it is the coefficient computed with rounding only. The same holds for any straight-line program of at most 2^40 additions, subtractions, scalings and fused operations with constants of size at most 1.", "quantifier": "every frame, transform size below 2^53, order of the operations in FFT, bank and DCT, and library hypot, log and pow that is right up to a factor", "why_tests_cant": "tests see one order of operations and ordinary levels; the bound is for all of them", "anchors": ["spafe/features/mfcc.py:mfcc", "spafe/features/mfcc.py:imfcc", "spafe/features/lfcc.py:lfcc", "spafe/features/ngcc.py:ngcc", "spafe/features/gfcc.py:gfcc", "spafe/features/msrcc.py:msrcc"]}
{"id": "C158", "title": "values that are not finite are never lost", "statement": "A NaN or infinite sample makes every coefficient of its frame NaN or infinite. So does one spectral bin of size 2^512 or more, even for the bands in which it has weight 0. So coefficients of finite samples need not be finite in float64: refuted by samples of size 2^600.", "quantifier": "every frame, order of the operations and library function that is finite for finite arguments only; existence for the refutation", "why_tests_cant": "a bad sample must not turn into a plausible number for any position, bank or order of operations", "anchors": ["spafe/features/mfcc.py:mfcc", "spafe/features/mfcc.py:imfcc", "spafe/features/lfcc.py:lfcc", "spafe/features/ngcc.py:ngcc", "spafe/features/gfcc.py:gfcc", "spafe/features/msrcc.py:msrcc"]}
{"id": "C159", "title": "float64 coefficients against exact arithmetic, underflow included", "statement": "For a signal of finite float64 samples of size at most 2^400 whose band energies are at least 2^-900 and exceed the stated noise, every coefficient of mfcc, imfcc, lfcc, ngcc, gfcc or msrcc computed with IEEE 754 operations is finite and within a stated bound of the result of the same call in exact arithmetic. Bank weights may be rounded as well; any intermediate result may underflow.", "quantifier": "every signal, configuration (without energy, lifter and normalisation), transform size up to 2^40, order of the operations in FFT, bank and DCT, and accurate library hypot, log and pow", "why_tests_cant": "an error bound over all signals and evaluation orders; tests compare with a stored result of one of them", "anchors": ["spafe/features/mfcc.py:mfcc", "spafe/features/mfcc.py:imfcc", "spafe/features/lfcc.py:lfcc", "spafe/features/ngcc.py:ngcc", "spafe/features/gfcc.py:gfcc", "spafe/features/msrcc.py:msrcc"]}
{"id": "C160", "title": "fast Fourier transforms of every size in floating point", "statement": "A Cooley-Tukey transform of complex numbers with any radices, by decimation in time or in frequency at each level, with any order of the additions in its butterflies, computes the Fourier transform; with rounding its error in the norm of the spectrum is at most G-1 times the norm of the spectrum, where G is a product of one factor 1+2*sqrt(r)*((1+u)^(2r+4)-1) per radix r. For 512 points in binary64 G-1 is below 2^-45.", "quantifier": "every list of radices (so every size), program, input and accurate rounding", "why_tests_cant": "an error bound by induction over the radices; a test sees one size and one library", "anchors": ["spafe/features/mfcc.py:mfcc", "spafe/features/lfcc.py:lfcc", "spafe/features/gfcc.py:gfcc"]}
{"id": "C161", "title": "cepstra whose spectra come from a fast Fourier transform", "statement": "As C154 with any Cooley-Tukey transform of nfft points on the pre-emphasised and windowed frame: the condition on the noise of a band is b*(G*(1+u)^5-1)^2*S <= r^2*energy, where b is the largest bank entry and S the energy of the frame with all signs positive, at most L*((1+|c|)*M)^2 for samples up to M. The noise grows with the logarithm of nfft only.", "quantifier": "every signal, configuration, list of radices with product nfft, order of the operations in FFT, bank and DCT, accurate hypot, log and pow", "why_tests_cant": "an error bound over all signals and transform programs", "anchors": ["spafe/features/mfcc.py:mfcc", "spafe/features/mfcc.py:imfcc", "spafe/features/lfcc.py:lfcc", "spafe/features/ngcc.py:ngcc", "spafe/features/gfcc.py:gfcc", "spafe/features/msrcc.py:msrcc"]}
{"id": "C162", "title": "a call without a window argument", "statement": "Every extractor called with window=None returns what it returns with SlidingWindow(0.025, 0.01, 'hamming'), errors included. At 200m samples per second a spectrogram then has (N-5m)//(2m)+1 rows, and sample t of row i is weighted by 0.54-0.46*cos(2*pi*t/(5m-1)).", "quantifier": "every signal, extractor and set of the other arguments", "why_tests_cant": "an equality of two calls for all inputs", "anchors": ["spafe/features/mfcc.py:mfcc", "spafe/features/mfcc.py:imfcc", "spafe/features/lfcc.py:lfcc", "spafe/features/ngcc.py:ngcc", "spafe/features/gfcc.py:gfcc", "spafe/features/msrcc.py:msrcc"]}
{"id": "C163", "title": "rounding errors in the RASTA filter do not pile up", "statement": "Entry t of a row filtered in floating point is within 1600*(u*M+eta) of the recursion y[t]=0.94y[t-1]+0.2x[t]+0.1x[t-1]-0.1x[t-3]-0.2x[t-4] in exact arithmetic, where M bounds the entries of the row, whatever its length. Coefficients are stored rounded. Without rounding the entries are those of rasta_filter. A constant row gives at most 1600*u times its value.", "quantifier": "every row of every length, rounding, contraction into fused multiply-adds and order of the additions in the FIR pass", "why_tests_cant": "a bound that holds for all lengths of a recursive filter; tests see finitely many", "anchors": ["spafe/utils/filters.py:rasta_filter", "spafe/features/rplp.py:rplp"]}
{"id": "C164", "title": "lifter and normalize act last, and small changes stay small", "statement": "For every extractor a call with lifter and normalize returns what the call without them returns, passed through lifter_ceps and then normalize_ceps, exceptions included. If two matrices differ by at most d, their results differ by at most 2d for 'ms', d(2+|y|)/(s-d) for 'mvn' and d(1+|y|)/(s-d) for 'vn' (s the standard deviation, d<s), 2d(1+|y|)/(g-2d) for 'mn' (g a difference of two entries, 2d<g), d*j^lift after liftering and d*h(h+1) for deltas with half width h. Without the condition on the spread no constant bounds the change for 'mvn', 'vn' and 'mn'.", "quantifier": "every extractor, signal, configuration and matrix; refutation for every constant", "why_tests_cant": "a bound over all matrices and all changes", "anchors": ["spafe/utils/cepstral.py:normalize_ceps", "spafe/utils/cepstral.py:lifter_ceps", "spafe/utils/cepstral.py:deltas", "spafe/features/mfcc.py:mfcc", "spafe/features/mfcc.py:imfcc", "spafe/features/lfcc.py:lfcc", "spafe/features/ngcc.py:ngcc", "spafe/features/gfcc.py:gfcc", "spafe/features/msrcc.py:msrcc"]}
{"id": "C165", "title": "normalisation in floating point", "statement": "If the features the program has are within d of the exact ones and at most M, normalisation by 'ms', 'mvn', 'vn' and 'mn' with one rounding per operation and sums in any order returns values within a stated bound of the normalised exact features, as long as the error of the standard deviation (or of the range) is smaller than itself. With the error bounds of C154, C159 and C161 as d this covers a call with normalize='ms' or 'mvn'. Without rounding the values are those of normalize_ceps.", "quantifier": "every matrix, extractor, rounding without underflow and order of summation", "why_tests_cant": "numpy's order of summation depends on shape and build; the bound is for all of them", "anchors": ["spafe/utils/cepstral.py:normalize_ceps", "spafe/features/mfcc.py:mfcc", "spafe/features/mfcc.py:imfcc", "spafe/features/lfcc.py:lfcc", "spafe/features/ngcc.py:ngcc", "spafe/features/gfcc.py:gfcc", "spafe/features/msrcc.py:msrcc"]}
{"id": "C166", "title": "log energies and Bark cepstra in floating point", "statement": "With use_energy=True the first column that floating point computes is within a stated bound of the one of exact arithmetic when the energy of the frame exceeds the noise of its spectrum, for every extractor of this pipeline. The coefficients of bfcc, with equal-loudness weighting and cube root in floating point, are within a stated bound of those of exact arithmetic. Both hold for any transform program and, with the noise of a fast Fourier transform, for any Cooley-Tukey transform. Without rounding the loudness computed is the one of the model.", "quantifier": "every signal, configuration, order of the operations in FFT, bank, sums and DCT, accurate hypot, log and pow", "why_tests_cant": "an error bound over all signals and evaluation orders; tests compare with a stored result of one of them", "anchors": ["spafe/features/bfcc.py:bfcc", "spafe/features/bfcc.py:intensity_power_law", "spafe/features/mfcc.py:mfcc", "spafe/features/mfcc.py:imfcc", "spafe/features/lfcc.py:lfcc", "spafe/features/ngcc.py:ngcc", "spafe/features/gfcc.py:gfcc", "spafe/features/msrcc.py:msrcc"]}
{"id": "C167", "title": "liftering and deltas in floating point", "statement": "If the features the program has are within d of the exact ones and at most M, then liftering with positive or negative lift and deltas in floating point return values within a stated bound of the exact results. A call with lifter and normalize='ms' or 'mvn' is within the bound that results from composing both. Without rounding the values are those of lifter_ceps and deltas.", "quantifier": "every matrix, lift up to 10 or at most -1, window, extractor, rounding without underflow and order of the additions in np.dot and lfilter", "why_tests_cant": "BLAS and scipy choose the order of additions; the bound is for all of them", "anchors": ["spafe/utils/cepstral.py:lifter_ceps", "spafe/utils/cepstral.py:deltas", "spafe/utils/cepstral.py:normalize_ceps", "spafe/features/mfcc.py:mfcc", "spafe/features/mfcc.py:imfcc", "spafe/features/lfcc.py:lfcc", "spafe/features/ngcc.py:ngcc", "spafe/features/gfcc.py:gfcc", "spafe/features/msrcc.py:msrcc"]}
{"id": "C168", "title": "two recordings that differ little have similar features", "statement": "If two signals differ by at most d in every sample, the roots of their band energies differ by at most sqrt(b*L)*(1+|c|)*d in every entry (L the frame length, c the pre-emphasis coefficient, b the largest bank entry). Rows of mfcc, imfcc, lfcc, ngcc and bfcc then lie within a stated distance where every band exceeds that level, the log energy column where the frame does; rows of gfcc and of msrcc with gamma<=1/2 without any condition. For log features in general no constant bounds the change, however small d is.", "quantifier": "all pairs of signals, configurations, banks, both DCT types and every d; refutation for every constant", "why_tests_cant": "a bound over all pairs of recordings; a test adds noise to one", "anchors": ["spafe/features/mfcc.py:mfcc", "spafe/features/mfcc.py:imfcc", "spafe/features/lfcc.py:lfcc", "spafe/features/ngcc.py:ngcc", "spafe/features/gfcc.py:gfcc", "spafe/features/msrcc.py:msrcc"]}
{"id": "C169", "title": "only ratios to the sampling rate matter", "statement": "Reading the same samples with fs multiplied by l, frequencies multiplied by l and durations divided by l: linear_filter_banks returns the same bank with centres times l; linear_spectrogram, lfcc, lpc, lpcc, cqt_spectrogram and cqcc return the same values, and so do all spectrograms and cepstra with a bank of the caller; compute_yin returns pitches and argmins times l, the same harmonic rates and times divided by l; dominant frequencies are multiplied by l before rounding to 3 digits; centroid and spread are multiplied by l, skewness by l^-3 and kurtosis by l^-4. Exceptions are the same. For the mel bank it is false.", "quantifier": "all signals, sampling rates, positive factors, configurations and roundings of durations", "why_tests_cant": "a relation between pairs of calls over all signals and all factors", "anchors": ["spafe/fbanks/linear_fbanks.py:linear_filter_banks", "spafe/features/lfcc.py:lfcc", "spafe/features/lpc.py:lpc", "spafe/features/cqcc.py:cqcc", "spafe/frequencies/fundamental_frequencies.py:compute_yin", "spafe/frequencies/dominant_frequencies.py:get_dominant_frequencies", "spafe/features/spfeats.py:extract_feats"]}
{"id": "C170", "title": "where a pure tone shows up", "statement": "For a tone A*cos(2*pi*nu*t+phi), any of the five windows, no pre-emphasis and frames not longer than nfft: every magnitude of a spectrogram further than d (as a fraction of fs) from the tone is at most |A|*(1/sin(pi*d)+1/min(sin(pi*nu),cos(pi*nu))), however long the frames are, and a band whose filter lies that far away gets at most the square of this over nfft times the sum of its weights. The bin get_dominant_frequencies picks is within d of the tone in every frame when the window sum exceeds a stated number. A tone of frequency f below fs/4 is then reported within d*fs*n/(n/2+1) of f*n/(n/2+1), not f; one above fs/4 as a negative number. With the default window at 16 kHz every tone of 1000 to 3800 Hz is reported within 400 Hz of 1.992*f, and for every tone of 4220 to 7000 Hz only_positive=True returns an empty list.", "quantifier": "every amplitude, phase, frequency, window, frame length, transform size and number of frames satisfying the stated inequality", "why_tests_cant": "Tests try a few tones at a few phases; the bounds hold for all of them and give the leakage of every window as a function of the distance.", "anchors": ["spafe/frequencies/dominant_frequencies.py:get_dominant_frequencies", "spafe/features/mfcc.py:mel_spectrogram", "spafe/features/lfcc.py:linear_spectrogram", "spafe/utils/preprocessing.py:windowing"]}
{"id": "C171", "title": "the pitch of a pure tone", "statement": "For a tone A*cos(2*pi*nu*t+phi), compute_yin reports every window as voiced, with pitch fs/p for an integer lag p less than one sample away from the period 1/nu and a harmonic rate below the threshold, whatever the amplitude and phase. It needs 12*nu^2 <= threshold <= 1/4, a window of about 1.7/(1-4*threshold) periods (stated exactly) and a period between the smallest and the largest lag. With the default arguments at 16 kHz this covers every tone of 100 to 1400 Hz.", "quantifier": "every amplitude, phase, frequency, window, hop, number of frames, lag range and threshold within the stated inequalities", "why_tests_cant": "The first lag below the threshold and the falling run after it depend on phase and on how the period falls between samples; tests sample a few tones.", "anchors": ["spafe/frequencies/fundamental_frequencies.py:compute_yin", "spafe/frequencies/fundamental_frequencies.py:get_pitch", "spafe/frequencies/fundamental_frequencies.py:compute_difference"]}
{"id": "C172", "title": "tones in noise", "statement": "If every sample of a recording is within eps of a tone A*cos(2*pi*nu*t+phi): compute_yin reports every window as voiced with an integer lag less than a sixth of a period away from 1/nu, so never an octave off, and a harmonic rate below the threshold, under stated bounds on eps/|A|, the window and the threshold. The bin get_dominant_frequencies picks is within d of the tone in every frame when 2/sin(pi*d)+4/min(sin(pi*nu),cos(pi*nu))+4*eps/|A|*W < cos(pi*delta*(L-1))*W, with W the sum of the window and delta the distance to a bin, and the number reported is that of C170. With default arguments at 16 kHz and noise up to |A|/40 this covers the pitch of tones of 265 to 500 Hz and the dominant frequency of tones of 1000 to 3600 Hz.", "quantifier": "every recording within eps of a tone, every amplitude, phase, frequency, window, transform size and threshold within the stated inequalities", "why_tests_cant": "The noise is arbitrary, not drawn from a distribution: a test can try some noise, not the worst one.", "anchors": ["spafe/frequencies/fundamental_frequencies.py:compute_yin", "spafe/frequencies/fundamental_frequencies.py:get_pitch", "spafe/frequencies/dominant_frequencies.py:get_dominant_frequencies"]}
{"id": "C173", "title": "a hum or an offset on a recording", "statement": "Adding a tone of amplitude A and frequency nu*fs to any recording changes bin k of a magnitude spectrum by at most |A|*(G*leak+first), with leak = 1/|sin(pi*(nu-k/nfft))|+1/|sin(pi*(nu+k/nfft))|, G the gain of the pre-emphasis filter at that frequency and first nonzero in the first frame only, whatever the window and the frame length. The root of a band energy changes by at most sqrt(weights/nfft) times this bound for its worst bin. For an offset the bound is |A|*(|1-coefficient|*2/sin(pi*k/nfft)+first). Rows of mfcc, imfcc, lfcc, ngcc and bfcc then lie within a stated distance where every band exceeds that level; rows of gfcc and of msrcc with gamma<=1/2 without any condition.", "quantifier": "every recording, amplitude, frequency, phase, window, configuration and bank", "why_tests_cant": "a bound over all recordings and all tones; a test adds one hum to one recording", "anchors": ["spafe/features/mfcc.py:mfcc", "spafe/features/mfcc.py:imfcc", "spafe/features/lfcc.py:lfcc", "spafe/features/ngcc.py:ngcc", "spafe/features/gfcc.py:gfcc", "spafe/features/msrcc.py:msrcc"]}
{"id": "C174", "title": "where the energy of a frame goes", "statement": "The bands of a row of mel_spectrogram or linear_spectrogram, with any scale, add up to at most the power of the half spectrum, and that lies between a half and all of the energy of the windowed frame; power in bins whose weights add up to one is not lost. Coefficient 0 of mfcc, imfcc and lfcc is at most sqrt(nfilts)*ln(energy/nfilts+2^-52), and for samples within M at most sqrt(nfilts)*ln(L*((1+|c|)*M)^2/nfilts+2^-52), so below 21 with default arguments and samples in [-1,1]. With use_energy=True coefficient 0 of every extractor lies between ln(energy)-ln 2 and ln(energy), and is ln(2^-52) for a frame of zeros.", "quantifier": "every recording, window, configuration and bank whose weights per bin add up to at most one", "why_tests_cant": "a ceiling over all recordings; tests see the values of some", "anchors": ["spafe/features/mfcc.py:mel_spectrogram", "spafe/features/lfcc.py:linear_spectrogram", "spafe/features/mfcc.py:mfcc", "spafe/features/mfcc.py:imfcc", "spafe/features/lfcc.py:lfcc", "spafe/features/ngcc.py:ngcc", "spafe/features/gfcc.py:gfcc", "spafe/features/msrcc.py:msrcc"]}
{"id": "C175", "title": "recordings made through a fixed filter", "statement": "If a recording within M passes a filter with impulse response h (a microphone, a line, a room), every magnitude of its spectrogram is the one without the filter times the gain of the filter at that bin, up to 2*sum(s*|h_s|)*(1+|c|)*M, for all five windows and any frame length; roots of band energies follow within the variation of the gain in the band. Rows of mfcc, imfcc, lfcc and ngcc are shifted by one fixed row, the DCT of 2*ln(gain) per band, up to a stated distance wherever the bands exceed that level; with normalize='ms' the features with and without the filter are within twice that distance. With normalize='mvn' even a plain gain changes the features, because the deviation is that of the whole matrix.", "quantifier": "every recording, impulse response, window, configuration and bank; refutation by one recording for mvn", "why_tests_cant": "a bound over all recordings and all filters; a test filters one recording", "anchors": ["spafe/features/mfcc.py:mfcc", "spafe/features/mfcc.py:imfcc", "spafe/features/lfcc.py:lfcc", "spafe/features/ngcc.py:ngcc", "spafe/features/gfcc.py:gfcc", "spafe/features/msrcc.py:msrcc", "spafe/utils/cepstral.py:normalize_ceps"]}
{"id": "C176", "title": "linear prediction with successive orders", "statement": "For every recording lpc accepts, the predictors of order p+2 are those of order p+1 plus k times their reversal, where k is the last coefficient of the longer predictor and |k|<1; the energy left in a frame shrinks by exactly 1-k^2, so a higher order never leaves more energy, and never none. No coefficient a_k of order p+1 exceeds the binomial coefficient (p over k) in size, and no entry lpcc returns without lifter and normalisation exceeds 2^p-1 from the second column on (4095 for 13 coefficients).", "quantifier": "every recording, frame length, hop, order and frame", "why_tests_cant": "bounds and a recursion over all recordings and orders; the code solves each order from scratch", "anchors": ["spafe/features/lpc.py:lpc", "spafe/features/lpc.py:__lpc_helper", "spafe/features/lpc.py:lpcc"]}
{"id": "C177", "title": "how far predictors can be off", "statement": "If no filter of p+1 taps with sum of squares 1 leaves less than s of the energy of a frame (for instance if its power spectrum with at least L+p points stays above s, and some s>0 exists for every frame lpc accepts), then numbers that miss the normal equations by little are close to the predictor of lpc and leave little more energy. This covers every computation from samples off by d, with products summed in any order and rounded, that solves its own system up to tau: the squared distance is at most p*(q/s)^2, with q = tau plus stated losses. Recordings within d of each other have predictors within p*(L*d'*(2M'+d')*2^p/s)^2, with d' and M' the difference and the peak after pre-emphasis. So near every accepted recording all are accepted and the predictors vary continuously; but not uniformly: the predictors of any two recordings occur at recordings closer than any distance.", "quantifier": "every recording, order, rounding, order of summation and solver with a checked residual; refutation for every distance", "why_tests_cant": "LAPACK's solver and BLAS orders differ between builds; the bound is for all of them and all recordings", "anchors": ["spafe/features/lpc.py:lpc", "spafe/features/lpc.py:__lpc_helper"]}
{"id": "C178", "title": "pitch of recordings with infinite or undefined samples", "statement": "For windows at least as long as the longest lag, compute_yin returns finite numbers only and never raises, whatever samples a recording has. A window that contains an inf or NaN is reported like a constant one: pitch 0, harmonic rate 1, argmin 0. What is reported for a window depends on its own samples only, so windows without such a sample are reported as in a sound recording.", "quantifier": "every recording with any float samples, sampling rate, window, hop and lag range", "why_tests_cant": "dropouts and overflows occur at any place; tests do not place them in every window", "anchors": ["spafe/frequencies/fundamental_frequencies.py:compute_yin", "spafe/frequencies/fundamental_frequencies.py:compute_difference", "spafe/frequencies/fundamental_frequencies.py:compute_cmnd"]}
{"id": "C179", "title": "recordings of the documented shape Nx1 (remaining functions)", "statement": "Given an Nx1 array, lpcc, psrcc, pncc, plp, rplp, cqt_spectrogram and cqcc return what they return for the 1-D signal with pre_emph=False, whatever pre_emph and pre_emph_coeff are. get_dominant_frequencies with butter_filter=True returns what it returns without the filter: each row of one sample is filtered on its own. This is not what the filter does to a 1-D signal: for every band centred below fs/4 some signal is reported differently.", "quantifier": "all signals, layouts, options, cut-off frequencies, window settings", "why_tests_cant": "equality of two calls for all inputs; the docstring's shape is not what tests pass", "anchors": ["spafe/frequencies/dominant_frequencies.py:get_dominant_frequencies", "spafe/features/lpc.py:lpcc", "spafe/features/psrcc.py:psrcc", "spafe/features/pncc.py:pncc", "spafe/features/rplp.py:plp", "spafe/features/rplp.py:rplp", "spafe/features/cqcc.py:cqt_spectrogram", "spafe/features/cqcc.py:cqcc", "spafe/utils/preprocessing.py:pre_emphasis"]}
{"id": "C180", "title": "the same sound framed from another instant on", "statement": "Take two rows, of one recording or of two, that contain the same samples except for s samples at either end. For recordings within M their magnitudes differ by at most 2*s*(1+|c|)*M, plus 2*|c|*M for the sample before the row, whatever the window and the row length; roots of band energies by sqrt(weights/nfft) times that. Rows of mfcc, imfcc, lfcc and ngcc are then within a stated distance where every band exceeds that level. For a recording cut out of a longer one from sample T on, every row i has such a partner: row i+T//hop of the longer one, with s = T mod hop.", "quantifier": "all pairs of recordings, rows, shifts, windows, configurations and banks", "why_tests_cant": "users cut recordings anywhere, while equality of rows holds for multiples of the hop only; a bound over all recordings and shifts", "anchors": ["spafe/features/mfcc.py:mfcc", "spafe/features/mfcc.py:imfcc", "spafe/features/lfcc.py:lfcc", "spafe/features/ngcc.py:ngcc", "spafe/features/gfcc.py:gfcc", "spafe/features/msrcc.py:msrcc", "spafe/features/mfcc.py:mel_spectrogram", "spafe/utils/preprocessing.py:framing", "spafe/utils/preprocessing.py:windowing"]}
{"id": "C181", "title": "features are no further apart than the recordings", "statement": "For any two recordings of the same length and a bank whose weights per bin add up to at most one (mel and linear banks with any scale): in every row the squared differences of the roots of the band energies add up to at most the energy of the windowed and pre-emphasised difference of the recordings; over all rows to at most ceil(L/hop)*(1+|c|)^2 times the energy of the difference. The rows of msrcc with gamma=1/2 obey the same bounds. Rows of mfcc, imfcc and lfcc are within 2d/(m-d), with d the norm of the difference of the frames and m the smallest root of a band energy, m>d, whatever the number of bands and coefficients.", "quantifier": "all pairs of recordings, windows, hops, transform sizes, configurations and banks", "why_tests_cant": "Lipschitz bounds over all pairs of recordings, with constants that do not depend on their length", "anchors": ["spafe/features/mfcc.py:mel_spectrogram", "spafe/features/lfcc.py:linear_spectrogram", "spafe/features/msrcc.py:msrcc", "spafe/features/mfcc.py:mfcc", "spafe/features/mfcc.py:imfcc", "spafe/features/lfcc.py:lfcc"]}
{"id": "C182", "title": "spectral statistics of two similar recordings", "statement": "For any two recordings of the same length, with D the energy of their difference within the nfft samples used: the mean and the standard deviation extract_feats reports differ by at most sqrt(2D), the flux by at most 2*sqrt(nfft*D), and the squared differences of the rolloff row add up to at most fs^2*nfft*D. The centroids differ by at most fs/2 times q over the sum of the magnitudes of either recording, q=sqrt((nfft//2+1)*nfft*D), once q is below that sum; logarithms of the flatness by at most 2*sqrt(2D)/w when no bin of either is below w. For the centroid no bound on D alone would do: two recordings with arbitrarily small D can have centroids at 0 and fs/2.", "quantifier": "all pairs of recordings of any length, sampling rates and transform sizes", "why_tests_cant": "stability over all pairs of recordings; the failure happens for quiet recordings only", "anchors": ["spafe/features/spfeats.py:extract_feats", "spafe/features/spfeats.py:spectral_centroid", "spafe/features/spfeats.py:spectral_flatness", "spafe/features/spfeats.py:spectral_flux"]}
{"id": "C183", "title": "sounds that nearly repeat are voiced", "statement": "Take any waveform that repeats every p samples, p among the lags compute_yin searches, with standard deviation s over a period. A window within e of it at every sample (noise, fading, rounding) is reported as voiced with a harmonic rate below the threshold as soon as 2e<s and (2e/(s-2e))^2 is below the threshold; this holds for every window of a recording of such a sound in noise of at most e. If the reported lag is p or more, its harmonic rate is at most (2e/(s-2e))^2. A window whose differences at all lags lie between a and b with threshold*b<=a is reported as unvoiced.", "quantifier": "all waveforms, periods, noises, window and hop lengths, lag ranges and thresholds", "why_tests_cant": "all waveforms and all noises, not the ones of a test recording", "anchors": ["spafe/frequencies/fundamental_frequencies.py:compute_yin", "spafe/frequencies/fundamental_frequencies.py:compute_cmnd", "spafe/frequencies/fundamental_frequencies.py:get_pitch"]}
{"id": "C184", "title": "a burst between silences counts as voiced", "statement": "A window that is constant before sample a and from sample b on is reported as voiced, with a lag of at most max(b,L-a), whatever the samples in between are, once max(b,L-a) is among the lags searched: the differences at that lag are taken over the constant samples only. For a single click at sample j the reported lag is exactly max(j,L-1-j)+1, with harmonic rate 0.", "quantifier": "all contents of the burst, positions, constants, window lengths and thresholds", "why_tests_cant": "depends on where in a window a sound falls; refutes that noise bursts are unvoiced", "anchors": ["spafe/frequencies/fundamental_frequencies.py:compute_yin", "spafe/frequencies/fundamental_frequencies.py:compute_difference"]}
{"id": "C185", "title": "which samples a row of the constant-Q transform sees", "statement": "Whatever two recordings of the same length cqt_spectrogram gets, an entry of the row with windows of N samples differs by at most the root mean square of the difference of the two frames over the N samples in the middle of nfft, plus spectral_threshold times the norm of the difference of the frames. With spectral_threshold=0 an entry depends on these N samples only. So rows with windows shorter than the hop skip samples although frames overlap: without pre-emphasis, the sample behind the middle of each frame can have any value.", "quantifier": "every pair of recordings, configuration, row and frame", "why_tests_cant": "that a sample is not looked at is a statement about all its values; the number of samples seen differs per row", "anchors": ["spafe/utils/spectral.py:compute_constant_qtransform", "spafe/features/cqcc.py:cqt_spectrogram"]}
{"id": "C186", "title": "loudness of quiet and of loud bands", "statement": "intensity_power_law grows with the energy of a band up to 27000 and falls from 35300 on, because it uses the energy where Hermansky's curve has a frequency. A row of bfcc whose bands have energies up to W is 4/3 of the row of mfcc with the same bank, but for a fixed amount in coefficient 0, up to sqrt(nfilts)*(W^2/6.3e6+W^2/0.38e9+W^6/9.58e26)/3; a row whose bands have at least W is -4/3 of it, up to sqrt(nfilts)*(0.38e9/W^2+9.58e26/W^6)/3. So coefficients beyond the first do depend on the level of the recording: each one that is not 0 for mfcc has one sign in all sufficiently attenuated copies and the other in all sufficiently amplified ones (samples as 16-bit integers against samples in [-1,1]).", "quantifier": "every recording, bank, window, configuration, row and gain", "why_tests_cant": "depends on the scale of the samples; a test uses one scale", "anchors": ["spafe/features/bfcc.py:intensity_power_law", "spafe/features/bfcc.py:bfcc", "spafe/features/mfcc.py:mfcc"]}
{"id": "C187", "title": "extractors given a filter bank", "statement": "imfcc, lfcc and ngcc return what mfcc returns when it is given their bank (and their pre-emphasis coefficient), gfcc what msrcc returns with gamma=1/3, and the four spectrogram functions differ in nothing but the bank; this holds for every recording, also with NaN or inf, and for exceptions. A bank computed once by the filter bank function of the module can be passed to every later call of any extractor without changing anything. With a bank given, low_freq, high_freq, scale, approach and (once it is at least num_ceps) nfilts have no effect and are not checked.", "quantifier": "for every recording, every bank, all arguments and every extractor", "why_tests_cant": "users cache banks and swap banks between extractors; tests compare a few outputs with stored values and use each function's own bank", "anchors": ["spafe/features/mfcc.py:124-163", "spafe/features/lfcc.py:115-154", "spafe/features/ngcc.py:139-178", "spafe/features/gfcc.py:123-162", "spafe/features/bfcc.py:145-183"]}
{"id": "C188", "title": "psrcc of similar recordings", "statement": "psrcc without use_energy returns the same coefficients for a recording and any positive multiple of it; reversing the polarity moves the phase of every non-zero bin by 180 degrees. If two recordings differ by at most d in every sample, the phase of a bin of magnitude m moves by at most e=180*L*(1+|c|)*d/m degrees or jumps by at least 360-e; a row all of whose bins have magnitude at least m and phases between e and 360-e moves by a stated amount (root exponents up to 1). Otherwise nothing bounds the change: for every level, distance d and bound M there are recordings within d of each other whose coefficient differs by more than M when the exponent is negative (as by default), and by at least 300^gamma-1 when it is positive.", "quantifier": "for every recording of finite samples, every bank, every exponent and every distance", "why_tests_cant": "phases near a whole turn are hit by a small set of inputs; a test with stored values never meets the jump and cannot show that it is absent elsewhere", "anchors": ["spafe/features/psrcc.py:166-180", "spafe/features/psrcc.py:182-206"]}
{"id": "C189", "title": "plp and rplp: size, similar recordings and level", "statement": "Coefficients 1 to p of plp and rplp (num_ceps=p+1, without lifter and normalisation) never exceed 2^p-1 in size. Around every recording each of whose frames is heard (for rplp: in every channel), every recording that is close enough sample by sample is accepted and has coefficients 1 to p as close as wanted. Turned down far enough, a recording has coefficients as close as wanted to those of the best predictor for the channel energies to the power 4/3; turned up far enough, for the energies to the power -4/3. These differ: for five channels, one hearing eight times as much as the others, the first coefficient is below -0.7 for all faint copies and above -0.4 for all loud ones.", "quantifier": "every recording, bank with weights of at least 0, window, order, tolerance and gain", "why_tests_cant": "a limit and a bound over all recordings and gains; tests compare one recording at one level", "anchors": ["spafe/features/rplp.py:__rastaplp", "spafe/features/rplp.py:plp", "spafe/features/rplp.py:rplp", "spafe/features/bfcc.py:intensity_power_law", "spafe/features/lpc.py:__lpc_helper"]}
{"id": "C190", "title": "Bark and ERB conversions in floating point", "statement": "With one rounding of relative error u per operation and library functions right up to v, bark2hz(hz2bark(f)) (Wang, Schroeder, or any unknown name) is within f times (1+u)^2(1+v)(1+t)exp(t*arcsinh((1+u)f/b))-1 of f, t=(1+v)(1+u)^2-1: below f/2^46 for 53 bits up to 100 kHz. For Tjomov the error is relative to f+20 and for ERB to f+1/0.00437, and no relative bound exists: in binary64 tiny frequencies fall together, so no inverse whatsoever is within a quarter of each. Order of frequencies is kept. Without rounding these are the conversions of the rest of the model.", "quantifier": "every frequency, rounding, accuracy of the library and stored constant; refutation for every possible inverse", "why_tests_cant": "a bound over all frequencies and roundings; tests compare a few values with a tolerance", "anchors": ["spafe/utils/converters.py:hz2bark", "spafe/utils/converters.py:bark2hz", "spafe/utils/converters.py:hz2erb", "spafe/utils/converters.py:erb2hz"]}
{"id": "C191", "title": "the Bark conversion of Zwicker in floating point", "statement": "With one rounding of relative error u per operation and log10 and 10**x right up to v, bark2hz(hz2bark(f, 'Zwicker'), 'Zwicker') is within f*((1+v)*exp(ln(10)*s)-1) of f for every f > 0, where s = (1+u)^5(1+v)(3+d-log10(1-u))-(3+d) and d is the number of decades between f and 1 kHz: below f/2^45 for 53 bits from 10 Hz to 100 kHz. A rounding that keeps order keeps the order of frequencies in both directions. Without rounding these are the conversions of the rest of the model.", "quantifier": "every frequency, rounding function, library accuracy and stored constants", "why_tests_cant": "a bound on all frequencies and all conforming mathematical libraries", "anchors": ["spafe/utils/converters.py:hz2bark", "spafe/utils/converters.py:bark2hz"]}
{"id": "C192", "title": "resampling and cqcc of similar recordings", "statement": "scipy's resample over the frames, as cqcc uses it, leaves every column with at most twice the energy per row it had, and with at most the same when the number of rows asked for is odd or not smaller than before; the factor two is reached (1, 0, -1, 0 becomes 1, -1). So the squared distance of two cqcc matrices (no lifter, no normalisation, any DCT type) is at most 2*rows/frames times the squared distance of the log powers of the two constant-Q transforms. If the samples of two recordings differ by at most d and d*(1+|c|)*(1+spectral_threshold*sqrt(min(L,nfft))) is at most the fraction h < 1 of every entry of the transform, the coefficients differ in mean square by at most 8*ln(1-h)^2 per row and bin. cqcc is continuous at every recording without a zero entry. At silence it is not: recordings as faint as wanted are as far away as wanted.", "quantifier": "all recordings, framings, constant-Q configurations, resampling ratios, DCT types and bounds", "why_tests_cant": "a bound over all pairs of recordings; no test visits every pair, and the jump at silence is at one point only", "anchors": ["spafe/features/cqcc.py:cqcc", "spafe/features/cqcc.py:cqt_spectrogram"]}
{"id": "C193", "title": "where a tone shows up in the constant-Q transform", "statement": "A pure tone of amplitude A in cqt_spectrogram without pre-emphasis, in every frame and whatever its phase: a row centred at another frequency f (in units of the sampling rate) responds with at most |A|/(2Q)*(f/|nu-f|+f/min(nu+f,1-nu-f)), so what counts is the relative distance of the frequencies times the quality Q; spectral_threshold adds at most spectral_threshold*|A|*sqrt(min(L,nfft)). The row at its own frequency responds with at least |A|*(s/2-1/(N*sin(2*pi*nu))) less that amount, where N is the length of the row's window and s the mean of the product of that window with the window of the frame. With two tones, the row of one of them shows it up to what the other one leaves there.", "quantifier": "all amplitudes, frequencies, phases, recording lengths, framings, windows and constant-Q configurations", "why_tests_cant": "a bound over continuous amplitude, frequency and phase; tests try a few tones", "anchors": ["spafe/features/cqcc.py:cqt_spectrogram", "spafe/utils/spectral.py:compute_constant_qtransform"]}
{"id": "C194", "title": "pre-emphasis can be applied beforehand; pre-emphasised tones", "statement": "A call with pre_emph=True gives what pre_emphasis followed by the call with pre_emph=False gives, errors included, for the spectrograms, all cepstral extractors, lpc, lpcc, plp, rplp, psrcc, pncc, cqt_spectrogram and cqcc; the coefficient is pre_emph_coeff, or 0.97 for the functions of C48 that ignore it. A tone comes out of pre_emphasis as a tone of the same frequency from the second sample on, its amplitude times sqrt(1-2c*cos(2*pi*nu)+c^2), a factor that grows with the frequency from |1-c| to 1+c. So every row but the first of a spectrogram or of features without normalisation of a tone is that of such a tone without pre-emphasis, and C193 holds with this amplitude.", "quantifier": "all signals, arguments, coefficients, amplitudes, frequencies and phases", "why_tests_cant": "an identity between two call sequences for every signal and argument, and a statement about every tone", "anchors": ["spafe/utils/preprocessing.py:pre_emphasis", "spafe/features/mfcc.py:mel_spectrogram", "spafe/features/mfcc.py:mfcc", "spafe/features/lpc.py:lpc", "spafe/features/cqcc.py:cqt_spectrogram"]}
{"id": "C195", "title": "whether a call succeeds does not depend on the sample values", "statement": "Two recordings of the same length, with any samples including NaN and infinities, given to the same function with the same arguments: both calls return tables of the same shape, or both raise the same exception. This holds for the spectrograms, all cepstral extractors, psrcc, pncc, cqt_spectrogram, cqcc and compute_yin (whose times agree as well), and for get_dominant_frequencies unless only_positive_frequencies is set, when only success is the same. Whether extract_feats succeeds does not even depend on the length. It does not hold for lpc, which returns for an impulse and raises LinAlgError for silence of the same length.", "quantifier": "all pairs of recordings of one length and all arguments", "why_tests_cant": "a statement about every pair of recordings; a test passes a few recordings and most often none with NaN", "anchors": ["spafe/features/mfcc.py:mfcc", "spafe/features/mfcc.py:mel_spectrogram", "spafe/features/psrcc.py:psrcc", "spafe/features/pncc.py:pncc", "spafe/features/cqcc.py:cqcc", "spafe/features/lpc.py:lpc", "spafe/frequencies/fundamental_frequencies.py:compute_yin", "spafe/frequencies/dominant_frequencies.py:get_dominant_frequencies", "spafe/features/spfeats.py:extract_feats"]}
{"id": "C196", "title": "which exceptions a call can raise", "statement": "With a hop of at least one sample, every call of a spectrogram or feature function or of get_dominant_frequencies, and every call of compute_yin or extract_feats, returns, or raises ParameterError, ZeroDivisionError, ValueError, IndexError or KeyError, or one of the following: OverflowError for the functions with a Bark bank, TypeError for imfcc without high_freq, LinAlgError for lpc, lpcc, plp and rplp. In particular no call reads memory that is not the recording's. With a negative hop, which is accepted, a recording shorter than a window does lead to such a read.", "quantifier": "all recordings, all arguments, all roundings", "why_tests_cant": "the absence of an exception or of a stray memory read over all arguments cannot be observed by trying some", "anchors": ["spafe/utils/preprocessing.py:framing", "spafe/features/mfcc.py:mfcc", "spafe/features/lpc.py:lpc", "spafe/features/rplp.py:__rastaplp", "spafe/features/cqcc.py:cqcc"]}
{"id": "C197", "title": "once a window fits, the arguments decide", "statement": "Two recordings of any lengths and with any samples (NaN and infinities included), both at least one window long, given to the same spectrogram or cepstral function (psrcc included, pncc and cqcc not) with the same arguments and a hop of at least one sample: both calls return, with rows of the same number of entries, or both raise the same exception. When no window fits, none of these functions returns. So a configuration tried on one recording works on every other one that is not shorter than a window.", "quantifier": "all pairs of recordings of any lengths, all arguments, all roundings", "why_tests_cant": "a statement about every pair of recordings and every configuration; tests try a few recordings with working arguments", "anchors": ["spafe/utils/preprocessing.py:framing", "spafe/features/mfcc.py:mel_spectrogram", "spafe/features/mfcc.py:mfcc", "spafe/features/gfcc.py:gfcc", "spafe/features/bfcc.py:bfcc"]}
