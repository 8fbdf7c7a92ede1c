# Design of the spafe model

## What is modelled

The Python package `spafe` (source in /repo/spafe) as total Gallina functions,
one per Python function, in `rocq/theories`. Each definition cites the file and
lines it models and says where it simplifies.

Common representation (Base.v):

- A float is `F := Fin r | PInf | NInf | NaN` over Coq's reals. That is numpy
  float64 with IEEE special values but **without rounding, overflow, underflow
  and signed zeros**. Theorems about values are therefore theorems about exact
  arithmetic, except those of Rounded.v (C119-C124), RoundedPncc.v (C141, C142),
  RoundedBanks.v (C143-C145), RoundedYin.v (C146-C149), RoundedCeps.v (C154),
  RoundedDominant.v (C155, C156), SpecFft.v (C160, C161), RoundedRasta.v (C163),
  RoundedNormal.v (C165), RoundedBark.v (C166) and RoundedLift.v (C167), in which
  every operation is rounded, and of Ieee.v (C157-C159), which computes in IEEE
  binary64.
- Where the code derives an *integer* from a float product or quotient
  (`int(win_len*fs)`, `int(fs/high_freq)`, the Bark bin edges ...), the model
  applies a rounding function `rnd` from the class `Env` to the product. Shape
  theorems hold for every `rnd`; theorems about the truncation itself use IEEE
  binary64 (Flocq), exact arithmetic, or any `sane_rounding`, and say so.
- Exceptions are values: `result A := Ok a | Raise e`. An out-of-bounds read
  through `as_strided` is the extra marker `OutOfBoundsRead`.
- Python integers are `Z`, strings are `string`, `None` is `option`.
- Arrays are lists, matrices are lists of rows.

Library calls (numpy/scipy) are modelled by their documented mathematical
meaning: FFT as the DFT sum, `fftconvolve`/`correlate` as the convolution sum,
`lfilter` as the direct-form difference equation, `scipy.fftpack.dct` as the
cosine sum, `linalg.inv` by Gaussian elimination, `np.kaiser` through the power
series of I0, `csr_matrix` as the dense matrix it represents.

| Python module | model | theorems |
|---|---|---|
| utils/preprocessing.py | Preprocessing.v | PropertiesPreprocessing.v |
| utils/converters.py | Converters.v | PropertiesConverters.v |
| utils/filters.py | Filters.v | PropertiesCepstral.v (RASTA), FiltersFacts.v |
| utils/cepstral.py | Cepstral.v | PropertiesCepstral.v |
| fbanks/mel_fbanks.py, linear_fbanks.py | MelBanks.v | PropertiesMelBanks.v |
| fbanks/bark_fbanks.py | BarkBank.v | PropertiesBark.v |
| fbanks/gammatone_fbanks.py | Cplx.v, Gammatone.v | PropertiesGammatone.v |
| numpy/scipy FFT, DCT | Fourier.v | PropertiesDct.v |
| features/mfcc, lfcc, bfcc, gfcc, ngcc, msrcc, psrcc | Features.v | PropertiesFeatures.v, PropertiesDct.v |
| features/lpc.py | LinAlg.v, Lpc.v | PropertiesLpc.v |
| frequencies/fundamental_frequencies.py | Yin.v | PropertiesYin.v |
| frequencies/dominant_frequencies.py | Dominant.v | PropertiesDominant.v |
| features/spfeats.py | SpFeats.v | PropertiesSpFeats.v |
| utils/spectral.py, features/cqcc.py | Cqt.v | PropertiesCqt.v |
| features/pncc.py | Pncc.v | PropertiesPncc.v |
| features/rplp.py | Rplp.v | PropertiesRplp.v |
| utils/vis.py (dB image, tick labels) | Vis.v | PropertiesVis.v |
| features/lpc.py on integer arrays | LpcPcm.v | PropertiesPcm.v |
| rounding in mfcc.py:155-162, cepstral.py:52-53, preprocessing.py:72 and numpy's windows | Rounded.v | PropertiesRounded.v |
| memory: which buffers the code of preprocessing.py, cepstral.py, mfcc/lfcc/bfcc/gfcc/ngcc/msrcc/psrcc/pncc/rplp.py, lpc.py, filters.py (rasta_filter), compute_yin, get_dominant_frequencies, cqt_spectrogram, cqcc and extract_feats reads, writes and returns | Memory.v, MemoryMore.v, MemoryClient.v | PropertiesMemory.v |
| 2-D signals: pre_emphasis, framing, the four spectrograms, the seven cepstral functions and lpc | Channels.v | PropertiesChannels.v |
| rounding in pncc.py:59-271 | RoundedPncc.v | PropertiesRoundedPncc.v |
| rounding in mel_fbanks.py:80-118, linear_fbanks.py:96-105, filters.py:67-75 and converters.py:346-385 | RoundedBanks.v | PropertiesRoundedBanks.v |
| rounding in fundamental_frequencies.py:16-268 | RoundedYin.v | PropertiesRoundedYin.v |
| scipy.signal.butter in dominant_frequencies.py:119-124 | Butter.v | PropertiesButter.v |
| rounding in one frame of mfcc, imfcc, lfcc, ngcc, gfcc and msrcc from samples to coefficients | RoundedCeps.v | PropertiesRoundedCeps.v |
| rounding in one frame of dominant_frequencies.py:138-158 | RoundedDominant.v | PropertiesRoundedDominant.v |
| the same frame in IEEE binary64 with overflow, infinities and NaN | Ieee.v | PropertiesIeee.v |
| the same frame in IEEE binary64 against the result of the call | Ieee.v (SpecIeeeEnd.v) | PropertiesIeeeEnd.v |
| np.fft.fft in the same frame as a mixed-radix transform | SpecFft.v (programs), RoundedCeps.v | PropertiesFft.v |
| filters.py:17-47 (rasta_filter) in floating point | RoundedRasta.v | PropertiesRoundedRasta.v |
| options lifter and normalize of all extractors, changes of their input | (SpecOptions.v) | PropertiesStability.v |
| cepstral.py:51-56 (normalize_ceps) in floating point | RoundedNormal.v | PropertiesRoundedNormal.v |
| bfcc.py:29-47,314-336 and use_energy in floating point | RoundedBark.v | PropertiesRoundedBark.v |
| cepstral.py:72-123 (lifter_ceps, deltas) in floating point | RoundedLift.v | PropertiesRoundedLift.v |
| changes of the samples (quantisation, added noise) seen in the features | SpecNoise.v, NoiseFacts.v | PropertiesNoise.v |
| relations between calls under a change of units (sampling rate) | SpecUnits.v, UnitsFacts.v | PropertiesUnits.v |
| spectra of pure tones (spectrograms, get_dominant_frequencies) | SpecTone.v, ToneFacts.v | PropertiesTone.v |
| pitch of pure tones (compute_yin) | SpecTone.v, YinToneFacts.v | PropertiesYinTone.v |
| tones in arbitrary noise (compute_yin, get_dominant_frequencies) | SpecTone.v, ToneNoiseFacts.v | PropertiesToneNoise.v |
| a hum or an offset added to a recording, seen in the features | SpecHum.v, HumFacts.v | PropertiesHum.v |
| energy of a frame against its spectrogram row and coefficient 0 | SpecBudget.v, BudgetFacts.v | PropertiesBudget.v |
| recordings through a fixed filter, seen in the features | SpecColour.v, ColourFacts.v | PropertiesColour.v |
| lpc.py with successive orders, inexact systems and solvers | SpecLevinson.v, LevinsonFacts.v, PredictorFacts.v | PropertiesLevinson.v, PropertiesPredictor.v |
| compute_yin on windows with inf or NaN | SpecBroken.v, YinBroken.v | PropertiesBroken.v |
| 2-D signals: lpcc, psrcc, pncc, plp, rplp, cqt_spectrogram, cqcc and get_dominant_frequencies with its filter | ChannelsMore.v | PropertiesChannelsMore.v |
| rows that start a few samples apart | SpecShift.v, ShiftFacts.v | PropertiesShift.v |
| distances between features of two recordings | SpecContract.v, ContractFacts.v | PropertiesContract.v |
| extract_feats of two similar recordings | SpecFeatsNoise.v, FeatsNoiseFacts.v | PropertiesFeatsNoise.v |
| voicing of nearly repeating windows and of bursts | SpecPeriodic.v, PeriodicFacts.v | PropertiesPeriodic.v |
| samples seen by the rows of the constant-Q transform | SpecCqtSeen.v, CqtSeenFacts.v | PropertiesCqtSeen.v |
| intensity_power_law and bfcc at low and at high levels | SpecLoud.v, LoudFacts.v | PropertiesLoud.v |
| extractors given a filter bank | SameBankFacts.v | PropertiesSameBank.v |
| psrcc of similar recordings | PhaseNearFacts.v, PhaseJumpFacts.v | PropertiesPhaseNear.v |
| plp and rplp of similar, faint and loud recordings | PlpNearFacts.v, PlpLevelFacts.v | PropertiesPlpNear.v |
| Bark and ERB conversions with rounding | RoundedScales.v, SpecRoundedScales.v, RoundedScalesFacts.v | PropertiesRoundedScales.v |
| resampling and cqcc of similar recordings | SpecCqccNear.v, CqccNearFacts.v | PropertiesCqccNear.v |
| tones in the constant-Q transform | SpecCqtTone.v, CqtToneFacts.v | PropertiesCqtTone.v |
| pre-emphasis before the call, pre-emphasised tones | SpecPreMoved.v, PreMovedFacts.v | PropertiesPreMoved.v |
| shape, success and exceptions of calls | SpecOutcome.v, OutcomeFacts.v, ExceptionFacts.v, OutcomeMore.v | PropertiesOutcome.v |
| recordings of different lengths | SpecWide.v, WideFacts.v | PropertiesWide.v |

Spec*.v hold the mathematics the statements are written in, Extractors.v the
vocabulary that lets one theorem speak of several extractors (argument record,
`run`, `well_framed`), *Facts/*More/*Laws.v the proofs.

## Simplifications worth knowing

- Pre-emphasis, framing and windowing act on float samples; every
  feature but lpc/lpcc without pre-emphasis converts integer PCM samples to
  float64 in its first step (lfilter or the window); LpcPcm.v models the one
  path on which they stay integers. Two-dimensional signals are in Channels.v.
- `framing` never returns an empty matrix: zero frames is an IndexError, as in
  the code.
- Bark bank: the bin edges use one rounding for `(nfft+1)*f/fs`.
- psrcc: `np.angle` of a zero bin is 0 (signed zeros are not modelled), and a
  phase of -tiny degrees is not rounded up to 360.
- `np.dot` of a NaN/inf row follows IEEE sums in order; a DCT of a row with a
  non-finite entry is evaluated by the same sum (scipy's FFT-based algorithm
  also gives non-finite numbers there, possibly of another kind).
- `linalg.inv` is Gaussian elimination with the first non-zero pivot. The
  inverse does not depend on the pivot choice in exact arithmetic, which is all
  the theorems use (`solve_unique`). Rounding can make a regular matrix look
  singular; that is outside the model. The inverse of a 0x0 matrix is not relied
  upon.
- `scipy.stats.mstats.gmean` of data with a zero is 0.
- `fftconvolve` of data with an inf or NaN is NaN everywhere (the FFT spreads
  it); compute_yin's theorems are about finite signals, except C178.
- `scipy.signal.butter` is modelled for "band" (Butter.v) in exact complex
  arithmetic, step by step as scipy does it; Dominant.v takes the coefficients as
  an argument, Butter.v adds the function with its own arguments. lfilter is
  modelled for a denominator that starts with 1 and is not longer than the
  numerator, which is what butter returns.
- `round(x, 3)` is the nearest multiple of 1/1000, ties to even, on reals.
- spfeats.py: the exponents `i` and `p` are naturals; the complex square root
  of a negative real takes the root with positive imaginary part (the sign of
  a zero is not modelled).
- spectral.py: the arguments of `np.ceil` are exact reals; a centre frequency 0
  (f0=0) is outside the model because the cast of inf to int64 is platform
  dependent; the product with the sparse kernel skips its zeros. A transform
  without any row (no frequency in the band) is not covered by a theorem,
  since scipy versions differ on sparse matrices without rows.
- `scipy.signal.resample` is its documented Fourier method on exact reals, for
  real data; a non-finite value makes its column NaN.
- pncc.py: `power` and `M` are naturals, matrices are rectangular and of a
  floating dtype (`np.zeros_like` of an integer matrix would truncate).
- rplp.py: `np.fft.ifft` is its formula; the loudness law is computed in exact
  reals. Order 1 (a predictor without coefficients) is not covered by a
  theorem because it depends on scipy's inverse of a 0x0 matrix. RASTA of rows
  with fewer than five entries is not covered (see filters.py above).
- vis.py: the spectrogram is real; `"%.1f" % z` is the sign and the nearest
  number of tenths, ties to even, on reals.
- Rounded.v: linear steps are arbitrary straight-line programs with one
  rounding per operation; library cosine and hypot are parameters with the
  stated properties. No overflow. `binary53` is binary64 without exponent
  limits; C119_binary64 says when the two agree.
- Memory.v: an array is a strided view of a buffer, a program is a tree of
  allocations, loads and stores. Entry-wise numpy expressions read their
  operands entry by entry and write into a new buffer; the values they compute
  are those of the model without memory. Buffers are never freed. A thread
  switch can happen at any load or store (more than the interpreter lock
  allows); there is no weak memory. Functions not listed in the table are not
  in the memory model.
  The arrays local to spectral.py (the decimated signal, the kernel, the columns)
  count as values there; the complex result of cqt_spectrogram is kept as an array
  of real and one of imaginary parts; the numbers of extract_feats are collected in
  one array.
- Channels.v: a 2-D signal is a list of rows and the order in which np.array lays out its copy.
  An element outside of the copy is an error in the model; the code reads whatever is there.
- RoundedPncc.v: one column of each recursion with one rounding per operation;
  numpy may not reorder these (they are entry-wise, and sum() of a list goes
  from left to right). No overflow.
- RoundedBanks.v: one entry of the bank with one rounding per operation;
  np.log10 and 10 ** x are parameters with the stated properties (C143 needs
  only that the power does not decrease). No overflow. The numbers of filters
  and columns are exact.
- RoundedYin.v: one rounding per operation, np.cumsum from left to right. The
  result of scipy.signal.fftconvolve is a parameter with a stated accuracy,
  because its FFT sizes and algorithm are not fixed. No overflow; finite samples.
- RoundedCeps.v: without energy, lifter and normalisation. Spectrum, bank and
  DCT are arbitrary straight-line programs with rounded constants; hypot, log
  and pow are parameters with a stated relative accuracy. No overflow or
  underflow in the positive theorems; the refutation is about binary64.
- RoundedDominant.v: the spectrum is an arbitrary straight-line program, hypot
  a parameter with a stated relative accuracy. No overflow. Underflow is left
  out of C155_peak and C155_gain (53 bits, unbounded exponents) and is the
  subject of C155_quiet, C155_binary64_gain_refuted and C156.
- Ieee.v: the numbers are Flocq's binary64 with one NaN. Spectrum, bank and DCT
  are straight-line programs with float constants; hypot, log and pow are
  parameters. C157 shows that "no overflow" in RoundedCeps.v is justified for
  samples up to 2^400.
- SpecFft.v: a transform is any program that splits by a list of radices. A level
  is a decimation in time (inputs weighted directly, or rotated first) or in
  frequency (sums, then rotations). Sums go in any order and may share common
  factors of their weights; constants are correctly rounded cosines and sines.
  This covers the passes of pocketfft for np.fft.fft. np.fft.rfft computes half
  of the outputs this way and leaves out the mirrored ones, whose values are the
  same up to sign. Left out: Bluestein's algorithm, which pocketfft uses for
  large sizes with a large prime factor, and table entries that are off by more
  than their rounding.
- RoundedRasta.v: one row, finite entries, no overflow. The loop is that of
  scipy's lfilter in C with every product rounded or contracted; the FIR pass is
  np.convolve with the additions in any order. The state of the previous row only
  reaches the first four entries, which are multiplied by 0, and is left out.
- RoundedNormal.v: finite entries, no overflow or underflow. np.mean and np.std
  add up in any order; the order is the same for the mean inside np.std and the
  sum of squares, as both see arrays of the same shape.
- RoundedBark.v: finite values, no overflow or underflow. Integer and fractional
  powers are any functions right up to a relative error; the stored exponent 1/3
  is rounded.
- RoundedLift.v: finite entries, no overflow or underflow; np.dot with the
  diagonal matrix and lfilter add up in any order. The factor j**lift of the
  positive case is a stored weight with a relative error.
- C177 does not model the algorithm of scipy.linalg.inv: its theorem is about any
  numbers that solve the computed system up to a residual, which can be checked
  afterwards. Autocorrelations there are sums of products in any order (the code
  takes them from np.correlate), without overflow or underflow.

## What is not modelled

- floating-point rounding and overflow (except as said above), dtype promotion
  (except integer arrays in lpc.py), warnings, performance; memory sharing between
  arrays is modelled for the functions of the memory row of the table only;
- plotting (matplotlib calls in utils/vis.py); only the dB computation and the
  tick labels' values are modelled;
- rounding in the design and the recursion of the band-pass filter (a filter of
  order 12 in direct form is known to be sensitive), the sampling of `scipy.signal.resample` beyond its definition;
- the tests, documentation and packaging.

## Trusted base

- Coq 8.16.1's kernel, and the faithfulness of the model to the Python text
  (by reading; the code is not run).
- Axioms: the standard library's real numbers (`ClassicalDedekindReals.sig_forall_dec`,
  `ClassicalDedekindReals.sig_not_dec`), `FunctionalExtensionality.functional_extensionality_dep`
  and, through lemmas of Flocq/Coquelicot used in proofs, `Classical_Prop.classic`
  where `Print Assumptions` lists it. No axiom is added by this development.
  `Print Assumptions` follows every property theorem in the Properties files.
  `coqchk -silent -o` accepts all compiled files and lists these four axioms and no others
  (no type-in-type, no unsafe fixpoints, no assumed positivity).
- Libraries used: Coq standard library, Flocq (floor/ceil/truncation and
  binary64 rounding), Coquelicot (power series for I0). They add no axioms of
  their own.

## Files

- Model: Base.v, and the files of the table above.
- Spec*.v: the mathematics the properties are stated in (independent of the
  model's helpers).
- *Facts.v, *More.v, *Laws.v, *Theory.v: lemmas and proofs.
- Properties*.v: only the property theorems, each closed by a lemma and followed
  by `Print Assumptions`, and the concrete examples showing hypotheses are met.
- Names: `Cxx_...`; `_refuted` marks a proved violation of what a user would
  expect; `_partial` marks a theorem that covers only part of its property.
- seeded/LOG.jsonl: wrong programs tried against the theorems.


## Plan per property

- **C01 framing returns exactly the documented sample blocks** -- stride_trick/framing over lists and Z indices; induction-free index arithmetic on seq/map; any rnd.
- **C02 framing never reads memory outside the signal** -- as_strided modelled as checked reads that return OutOfBoundsRead; show the marker is unreachable for mono/positive hop, reachable otherwise.
- **C03 framing covers the signal except a tail shorter than one hop** -- from the row-count formula by Euclidean division.
- **C04 framing reports every unusable configuration with an exception** -- case split on the three parameters, one theorem per exception, plus completeness (iff).
- **C05 window duration in seconds is converted to samples with an error of at most one sample** -- rnd := Flocq binary64 rounding; error bound of two roundings; refutation witness evaluated with Flocq/interval reasoning.
- **C06 pre-emphasis is exactly y[t]=x[t]-a*x[t-1]** -- lfilter as FIR difference equation; induction on the list.
- **C07 pre-emphasis can be streamed** -- firstn commutes with the FIR.
- **C08 zero_handling makes logarithms of non-negative data finite and changes nothing else** -- list map; case analysis on floats.
- **C09 windowing multiplies every frame by one fixed, symmetric window in [0,1]** -- windows as real functions; trigonometric bounds; Kaiser I0 as a power series (Coquelicot) with monotonicity.
- **C10 windowing uses the textbook window formulas** -- trigonometric identity cos(x-pi) etc. from numpy's symmetric index formula.
- **C11 mel conversions are mutually inverse** -- ln/Rpower algebra.
- **C12 frequency scales are strictly increasing and anchored** -- monotonicity of ln, arcsinh, atan.
- **C13 erb conversions are mutually inverse** -- ln/Rpower algebra.
- **C14 bark conversions: which approaches round-trip** -- arcsinh/sinh; refutations by strict inequality of tan and by evaluation.
- **C15 the Traunmueller correction is a continuous strictly increasing bijection** -- piecewise linear reasoning.
- **C16 mel and linear filter banks have shape nfilts x (nfft//2+1)** -- length lemmas.
- **C17 mel and linear filters are triangles with values in [0,1]** -- the two boolean masks against the min/max triangle spec.
- **C18 filter centres are strictly increasing and inside the band** -- closed form of the scale points.
- **C19 neighbouring constant-scale triangles sum to one** -- the column lies between two consecutive centres; telescoping.
- **C20 filter-bank parameter validation** -- case analysis.
- **C21 columns of a mel/linear filter bank versus FFT bins** -- linspace closed form; converse by k=0,1,last.
- **C22 an inverted band is not rejected** -- all masks select only the value 0.
- **C23 inverse mel filters are the mirrored mel filters** -- list reversal.
- **C24 inverse mel filter banks need an explicit high_freq** -- case analysis.
- **C25 inverse mel centre frequencies** -- closed form, converse by injectivity of hz2mel.
- **C26 scaling vectors** -- list closed form.
- **C27 the Bark masking curve** -- real analysis of the piecewise curve.
- **C28 Bark filter bank contents** -- floor bounds so every index is in range; round trip C14.
- **C29 Bark filter bank failures of the other approaches** -- case analysis; Terhardt by numeric bounds.
- **C30 gammatone centre frequencies** -- exp/ln monotonicity.
- **C31 gammatone filters are normalised** -- complex moduli: |u|=1, pole inside the unit circle, gain non-zero.
- **C32 mean subtraction centres every coefficient** -- sums of columns.
- **C33 variance normalisation is global, not per coefficient** -- algebra; counterexample matrix.
- **C34 mean normalisation has range one** -- max/min fold lemmas.
- **C35 normalisation invariances and degenerate inputs** -- affine invariance of mean/std/max/min.
- **C36 exponential liftering** -- dot with a diagonal matrix.
- **C37 sine liftering** -- sin bounds; explicit zero factor.
- **C38 delta features** -- FIR with antisymmetric window; index clamp.
- **C39 the orthonormal DCT keeps energy and isolates gain** -- orthogonality of cosines (telescoping trigonometric sums).
- **C40 spectrograms are non-negative filter-bank energies** -- pipeline unfolding; sums of non-negatives.
- **C41 features have one row per frame and num_ceps columns** -- length tracking through the pipeline.
- **C42 log-compressed features are finite for every finite signal** -- finiteness tracking; zero_handling.
- **C43 root-compressed features on silence** -- evaluate on zero frames.
- **C44 cepstra beyond the first do not depend on the recording gain** -- homogeneity of every stage, then C39 for the constant row.
- **C45 each feature row depends only on its own frame** -- two-run argument, framing content + row-wise stages.
- **C46 use_energy replaces coefficient 0 by the log frame energy and nothing else** -- column update.
- **C47 number of cepstra is checked first** -- first branch.
- **C48 which extractors honour pre_emph_coeff** -- model ignores the argument because the code does; stated relationally over runs.
- **C49 frames longer than nfft are truncated** -- fft crop.
- **C50 lpc and lpcc ignore the window shape** -- stated relationally over runs.
- **C51 LPC coefficients solve the normal equations** -- Gaussian elimination model of linalg.inv with correctness proof; positive definiteness of the autocorrelation matrix.
- **C52 LPC error term** -- closed form and counterexample.
- **C53 LPC to cepstrum conversion** -- closed form and counterexample.
- **C54 YIN difference function** -- cumsum/convolution identity.
- **C55 YIN cumulative mean normalisation** -- closed form.
- **C56 YIN pitch search** -- loop invariant on fuelled recursion, fuel proved sufficient.
- **C57 YIN output ranges** -- range length; truncation bounds.
- **C58 YIN requires the window to hold one maximal period** -- length bookkeeping.
- **C59 dominant frequency of a frame** -- fftfreq closed form.
- **C60 dominant frequencies count** -- filter lemma.
- **C61 spectral centroid stays in band** -- weighted mean bound.
- **C62 spectral flatness is in [0,1]** -- AM-GM by concavity of ln.
- **C63 spectral flux** -- norm laws.
- **C64 spectral rolloff is not a frequency** -- closed form.
- **C65 constant-Q kernel selection** -- sorted lists: the filter on lengths keeps a suffix.
- **C66 constant-Q transform is linear in the frames** -- linearity of DFT and dot product.
- **C67 PNCC medium-time power** -- windowed sums.
- **C68 PNCC asymmetric low-pass filter stays within the data** -- induction over frames.
- **C69 PNCC temporal masking** -- induction over frames.
- **C70 PNCC weight smoothing** -- closed form.
- **C71 PNCC mean power normalisation never divides by zero** -- induction over frames.
- **C72 RASTA filter** -- closed form for the first four columns; two-run counterexample.
- **C73 phase features** -- case analysis of arctan2/degree mapping.
- **C74 intensity-loudness law** -- positivity of the rational function.
- **C75 spectrogram display range** -- log10 monotone, max.
- **C76 decade laws of the frequency scales** -- ln algebra.
- **C77 an empty band gives a bank of NaN** -- 0/0 in every mask.
- **C78 the half spectrum keeps the energy of the frame** -- Parseval for the DFT, folding of the mirrored bins.
- **C79 features move with the signal** -- row locality applied to the shifted signal.
- **C80 psrcc turns silence into non-finite numbers** -- evaluate on zero frames.
- **C81 LPC synthesis filters are stable** -- if a root had modulus >= 1, deflating it would give a predictor with smaller residual energy, against C51.
- **C82 lpc never returns a non-finite number** -- every helper result comes from a finite solve.
- **C83 lpcc under gain** -- closed form, homogeneity of the correlation.
- **C84 YIN reports periodic windows as voiced** -- the curve is 0 at the period, and never negative.
- **C85 YIN ignores gain, polarity and offset** -- the difference function ignores offsets and scales by g^2; the normalisation cancels the factor.
- **C86 YIN on constant windows** -- NaN ordering of argmin, < and min.
- **C87 YIN moves with the signal** -- frame i of the shifted signal is frame i+1.
- **C88 dominant frequencies ignore gain and see the filtered signal** -- homogeneity of the spectrum; lfilter equals the recurrence.
- **C89 dominant frequencies of signals with a known answer** -- |X[k]| <= X[0] by the triangle inequality; at fs/2 the bound is attained in the last bin only.
- **C90 dominant frequency of a frame with a NaN** -- argmax takes the first NaN.
- **C91 the frequency axis of the spectral statistics is folded** -- single-term sums; divisibility.
- **C92 skewness and kurtosis of a spectrum** -- scaling of moments.
- **C93 spectral entropy** -- ln x <= x-1.
- **C94 spectral spread is an array** -- closed form.
- **C95 mean, variance and rms of extract_feats** -- expansion of squares, triangle inequality.
- **C96 extract_feats and level** -- closed forms of the twelve values.
- **C97 the FFT method computes Brown's transform** -- Parseval's inner product identity from the orthogonality of the DFT, then split the sum at the support of the window.
- **C98 what the spectral threshold can change** -- |K - thresholded K| <= thr, Cauchy-Schwarz, Parseval.
- **C99 shape and level of cqt_spectrogram and cqcc** -- closed forms; weights of the resampling sum to 1.
- **C100 the resampling step of cqcc** -- orthogonality of cosines over equally spaced points.
- **C101 pncc of audible signals is finite** -- positivity tracked through the stages.
- **C102 one silent channel ruins pncc from there on** -- 0/0 in the weights, then NaN in the running power.
- **C103 pncc and gain** -- every stage is homogeneous; the running power is a mixture of 1e-4 and a homogeneous term.
- **C104 look-ahead of pncc** -- two-run argument through the recursions.
- **C105 pncc is bounded whatever the level** -- the running power is at least (1-lam) times the mean of the row.
- **C106 pncc and banks of another size** -- index and denominator bookkeeping of the smoothing loop.
- **C107 what plp and rplp compute** -- rewrite the stages into reals, then lpc's theorems.
- **C108 plp ignores polarity and the order of the filters** -- reversal multiplies the inverse DFT by a phase; the modulus drops it.
- **C109 rplp does not depend on the level** -- a gain adds a constant to the log energies, which the RASTA numerator annihilates.
- **C110 silence stops plp and rplp** -- follow -inf through the filter: 0*inf at once or two steps later.
- **C111 rows of plp and rplp depend on their own frame** -- the filter state left by a row only enters entries that are then zeroed.
- **C112 shape of plp and rplp** -- inversion of every stage.
- **C113 plp cannot tell which channel is excited** -- the inverse DFT of one spike has constant modulus.
- **C114 rplp removes a fixed channel colouration** -- five one-bin filters.
- **C115 laws of the dB image** -- monotone logarithm; NaN through np.max.
- **C116 tick labels of show_fbanks** -- nearest-integer error bound; monotone scales.
- **C117 lpc of quiet integer samples** -- |R(d)| <= R(0) < 2^(b-1), so no entry wraps.
- **C118 lpc of integer samples wraps around** -- uniqueness of the representative modulo 2^bits; singular matrix of zeros; explicit frames.
- **C119 band energies in floating point** -- induction over programs: one factor 1-u..1+u per rounding, no cancellation.
- **C120 polarity and power-of-two gain are exact in floating point** -- induction over programs; rounding is odd and commutes with powers of two.
- **C121 rounding error of the linear steps** -- induction over programs.
- **C122 numpy's windows in binary64** -- odd rounding; monotone rounding; for blackman exact integer arithmetic on the scaled constants and |cos(pi+d)+1| <= d^2/2.
- **C123 constant columns in binary64** -- integer sums are exact; evaluation of the witness.
- **C124 mean subtraction in floating point** -- C121 plus the rounding of the subtraction.
- **C125 features of a reversed recording** -- reversal maps frame i to the reverse of frame n-1-i; |DFT| ignores reversal; normalisation treats rows as a bag.
- **C126 changing the hop only selects rows** -- frame i of the longer hop is frame k*i of the shorter one, stages after framing are row-wise.
- **C127 a NaN sample** -- NaN through the DFT sum, the bank, the logarithm, the DCT and the lifter; inversion of every stage for totality.
- **C128 band edges of the filter banks** -- columns are evaluated on linspace(low, high), so the band cancels.
- **C129 a faint sound counts as quieter than silence** -- ln goes to -inf while silence is ln(eps).
- **C130 distances between rows of cepstra** -- the orthonormal DCT is an isometry; cropping only drops squares.
- **C131 zero padding** -- the DFT of the padded frame at bin m*k has the same phases.
- **C132 normalisation does not see the order of the frames** -- column statistics are sums, invariant under permutation.
- **C133 calls do not change the arrays they are given** -- simulation of programs by the value model; every store goes to a buffer above the old ones.
- **C134 read-only arrays** -- the same safety predicate.
- **C135 histories of calls and assignments** -- invariant over histories: own arrays are apart and do not overlap themselves.
- **C136 threads sharing arrays** -- invariant over schedules: each thread is where it would be alone; step counting.
- **C137 overlapping frames share their samples** -- the cell i*hop+j of the copied signal.
- **C138 lifter_ceps may return its argument** -- the returned handle is the argument.
- **C139 signals of the documented shape Nx1** -- lfilter along an axis of length one; the rest is the 1-D model.
- **C140 signals with several channels** -- index arithmetic of as_strided; division with remainder for the joined channels.
- **C141 the recursions of PNCC do not accumulate rounding errors** -- one step is Lipschitz with the larger coefficient, also across the branches; geometric series of the local errors.
- **C142 temporal masking jumps** -- explicit signals at the tie; bounds through the later stages.
- **C143 mel and linear filter banks in floating point: range of the entries** -- monotone rounding keeps the points in order; a difference of different numbers is not rounded to zero; quotient of ordered numbers is at most 1.
- **C144 mel and linear filter banks in floating point: accuracy** -- C121 for points and columns; the triangle is Lipschitz in its nodes after clipping; one more bound per operation.
- **C145 hz2mel and mel2hz in floating point** -- relative error of 1 + f/b carried through log and power by exp(t ln x).
- **C146 the YIN difference function in floating point** -- errors of running sums; |sum x(j)x(j+tau)| <= energy; for whole numbers every intermediate value is an integer below 2^53.
- **C147 decisions of compute_yin in floating point** -- perturbation of numerator and denominator of the curve; the rest are comparisons.
- **C148 windows without variation in floating point** -- all differences are 0, so the curve is NaN; the witness is computed in integers at a fixed scale.
- **C149 gain, polarity and offset of compute_yin in floating point** -- rounding commutes with powers of two, quotients do not change.
- **C150 cut-off frequencies of the band-pass filter** -- monotone rounding against the two bounds.
- **C151 the band-pass filter is stable** -- the poles of the prototype are in the left half plane, s + wo^2/s = 2q keeps them there, the bilinear map sends them inside the unit circle; then one first-order recursion per pole.
- **C152 the band-pass filter is a Butterworth filter** -- the product over conjugate poles is D^12 + E^12; the difference from the steady tone obeys the homogeneous recursion.
- **C153 the band-pass filter removes offsets** -- E = 0 at both ends of the frequency axis; linearity.
- **C154 rounding error of cepstral coefficients, from the samples to the result** -- per-bin errors of C121 as noise energy of a band; (a+d)^2 <= (1+r)a^2+(1+1/r)d^2 summed over the bins; logarithm of the factors; C121 for the DCT on inaccurate inputs.
- **C155 dominant frequencies in floating point** -- relative error of the squares; complex triangle inequality for a bin; the first maximum of perturbed values; rounding commutes with powers of two; squares below 2^-1075 round to 0.
- **C156 recordings below the resolution of binary64 look like silence** -- as C155_quiet, then every program maps zeros to zero.
- **C157 no overflow and no NaN in float64 for signals below 2^400** -- size of a program's result by induction, (1+u)^nodes <= 2; Flocq's correctness theorem for every operation.
- **C158 values that are not finite are never lost** -- every operation is strict in finiteness; a square from 2^512 on overflows.
- **C159 float64 coefficients against exact arithmetic, underflow included** -- C157 reduces the floats to rounding; every operation may lose 2^-1075, and at most 2^40 operations keep the sum below 2^-1033; then as C154 with this loss added to the noise of a bin.
- **C160 fast Fourier transforms of every size in floating point** -- induction over the radices: decimation in time or in frequency, Parseval for one level (it multiplies energies by r), Minkowski, Cauchy-Schwarz for the local errors of the butterflies.
- **C161 cepstra whose spectra come from a fast Fourier transform** -- C160 for the frame with the errors of its samples added by Parseval; bins of a band hold at most the whole error energy; then as C154.
- **C162 a call without a window argument** -- rewrite the default in the framing step shared by the extractors; the closed form of C40 with the frame length and weights computed.
- **C163 rounding errors in the RASTA filter do not pile up** -- invariant on the distance of the four state variables from the exact state; the pole 0.94 keeps it bounded.
- **C164 lifter and normalize act last, and small changes stay small** -- destruct the shared steps of both calls; the norm of a difference of two centred matrices for the standard deviation; a quotient with both parts perturbed.
- **C165 normalisation in floating point** -- error of a mean and a deviation; relative bounds through sum, division and root; then the quotient of C164 with one more rounding.
- **C166 log energies and Bark cepstra in floating point** -- a metric |ln a - ln b| on positive numbers: products, quotients, powers and sums of nearby numbers are nearby; the loudness is a quotient of products of such.
- **C167 liftering and deltas in floating point** -- the error of a dot product whose other terms are zeros; the sine has Lipschitz constant 1; lfilter as a dot product with the window.
- **C168 two recordings that differ little have similar features** -- root of a band energy is a weighted Euclidean norm of the spectrum, so it obeys the triangle inequality; Cauchy-Schwarz bounds a spectrum entry by the frame; log of a ratio near one; concavity of powers below one half.
- **C169 only ratios to the sampling rate matter** -- multiplication of a float (NaN and infinities included) by a positive number commutes with sums, differences and quotients and keeps comparisons; push it through each function; a refutation by one mel filter over three columns.
- **C170 where a pure tone shows up** -- every window falls in its second half and rises in its first, so summation by parts bounds a windowed oscillation by 2/|sin|; near the tone the cosine around the middle of the window is at least its value at the ends; the largest bin is therefore near; then the index-to-frequency rule of C59.
- **C171 the pitch of a pure tone** -- closed form of the difference function of a tone, sin^2 times a nearly linear factor; before 5/6 of the period it is too large, at the nearest integer small enough; it falls until a sample before the period and rises after it.
- **C172 tones in noise** -- a square of a sum between (1-l)a^2-(1/l-1)b^2 and (1+l)a^2+(1+1/l)b^2, so the difference function of C171 with noise stays above the threshold away from the period and below it at the period; the triangle inequality for magnitudes with the bounds of C170.
- **C173 a hum or an offset on a recording** -- a tone through the pre-emphasis filter is a tone with another phase and amplitude, except for the first sample; the leakage bound of C170 for every bin; roots of band energies obey the triangle inequality; then as C168.
- **C174 where the energy of a frame goes** -- Parseval with bin weights 1 and 2; swap the sums over bands and bins, column sums from C19; the tangent of ln at the mean band energy.
- **C175 recordings made through a fixed filter** -- windowing a recording delayed by one sample instead of the recording costs the total variation of the window, at most 2, times the peak; sum over the delays of the filter; a band energy of the product spectrum lies between the extreme gains; logarithms turn the gain into a fixed row, which the mean contains too.
- **C176 linear prediction with successive orders** -- the reflected predictor meets the longer system; uniqueness identifies it with what lpc returns; positive energies give |k|<1; Pascal's rule for the bound.
- **C177 how far predictors can be off** -- the residual energy is a quadratic form; Parseval bounds it below by the spectrum; Pythagoras around the predictor with Cauchy-Schwarz turns a defect into a distance; the binomials of C176 bound the defect of another recording's predictor; gains leave predictors unchanged, which refutes uniformity.
- **C178 pitch of recordings with infinite or undefined samples** -- a non-finite sample makes the FFT convolution and so every difference NaN; the curve is 1 followed by NaN; no comparison with NaN succeeds in the search or in min, and argmin is 1; windows are slices of the list of samples.
- **C179 recordings of the documented shape Nx1 (remaining functions)** -- framing of an Nx1 array is that of the list of its samples (C139); one sample through the filter is a product with b[0], which is not 0 because the product of the pole distances is real and not 0; gain invariance (C88). The poles of a band below fs/4 have a positive sum, so a two-sample signal changes sign in the 1-D filter.
- **C180 the same sound framed from another instant on** -- one sample at a time with the total variation of the window as in C175, keeping a phase factor per bin; pre-emphasis changes only the first shared sample; then the triangle inequality for roots of band energies and ln(1-r).
- **C181 features are no further apart than the recordings** -- the root of a band energy is a seminorm, so differences are band energies of the difference; add them up with the column sums of the bank and Parseval; (a-cb)^2 <= (1+|c|)(a^2+|c|b^2) for pre-emphasis; cut rows into hops to count how often a sample occurs; the DCT is an isometry.
- **C182 spectral statistics of two similar recordings** -- the bins of the difference by Parseval; mean, deviation and flux are seminorms of the bins or of their magnitudes; the difference of two weighted means is a weighted mean of deviations; ln is Lipschitz above w; two recordings of two samples (sum and difference) for the jump.
- **C183 sounds that nearly repeat are voiced** -- differences of one sample to a whole period add up to at least p times the variance; a pointwise quadratic lower bound carries this over to the noisy window; the lag found lies on a falling run of the curve.
- **C184 a burst between silences counts as voiced** -- differences beyond max(b,L-a) compare constant samples only; for a click the curve is at least 1/2 before that lag and 0 after it.
- **C185 which samples a row of the constant-Q transform sees** -- linearity reduces to the difference of the frames; Brown's sum by Cauchy-Schwarz with windows at most 1; the threshold by C66's bound; middles of neighbouring frames do not meet when they are shorter than the hop.
- **C186 loudness of quiet and of loud bands** -- factor the law into monotone fractions of the squared energy; logarithms of its factors against s and 1/s; the DCT is an isometry and puts a constant into coefficient 0; a gain does not move the other coefficients of mfcc.
- **C187 extractors given a filter bank** -- the magnitudes of rfft are the first half of those of fft for any windows, so all extractors run the same steps on bank, coefficient and compression.
- **C188 psrcc of similar recordings** -- distance of a point to a ray bounds the sine of half the angle, Jordan's inequality turns it into degrees; uniqueness of phases gives gain and polarity; the mean value theorem for the roots; four samples A, -q, 0, 0 and A, q, 0, 0 for the jump.
- **C189 plp and rplp: size, similar recordings and level** -- band energies are continuous in the samples (C168), the cube root of a difference bounds a difference of cube roots, the modulus of the inverse DFT is Lipschitz, predictors move little above an energy floor (C177), the coded cepstrum is linear in the predictor; for the levels divide by a common factor, which predictors do not see, and use C186.
- **C190 Bark and ERB conversions in floating point** -- sinh(r*A) <= r*exp((r-1)A)*sinh(A) from exp(x) >= 1+x, and its mirror image, bound sinh at a slightly wrong argument; ERB has the shape of the mel conversions (C145); two stored numbers with one image refute a relative bound.
- **C191 the Bark conversion of Zwicker in floating point** -- Each of the seven steps multiplies (error + range) by 1+u or 1+v when the exact value stays within the range 3+|log10(f/1000)|; the last power turns the absolute error of the exponent into a relative one.
- **C192 resampling and cqcc of similar recordings** -- resampled rows are a sum of harmonics, orthogonal over the new rows; Parseval over half the bins bounds their amplitudes by the input; the DCT is an isometry; logarithms of two numbers at relative distance h; C185 for the transforms of two recordings; the gain law of C99 for the jump at silence.
- **C193 where a tone shows up in the constant-Q transform** -- the product of the row's window and the frame's window has total variation at most four; summation by parts against an oscillation of the difference or the sum of the frequencies; Jordan's inequality and N >= Q*fs/f turn sines into relative distances; linearity for two tones.
- **C194 pre-emphasis can be applied beforehand; pre-emphasised tones** -- all extractors reach the samples through framed only; the filter turns a tone into a tone from the second sample on (C173), and rows depend on their own frame (C45).
- **C195 whether a call succeeds does not depend on the sample values** -- a relation on results that keeps exceptions and row lengths only is kept by every step of an extractor; recursions over frames (pncc) by induction; the search of compute_yin stays inside a list that is long enough, or fails at once; C51 for the lpc counterexample.
- **C196 which exceptions a call can raise** -- raises_only is closed under bind, mapM and folds; framing with a positive hop is safe by C02; each bank and each solver adds the exceptions it can raise.
- **C197 once a window fits, the arguments decide** -- a relation between non-empty tables whose rows all have one width is kept by every step; framing yields such tables when a window fits (C02, C04); the outcome of a step on a row depends on the row's width only.
