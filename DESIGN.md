# Formal model of dealias/fftwpp in Rocq (Coq 8.16.1)

## Trusted base

* Coq 8.16.1's kernel (checked with `coqc`; `coqchk -o` at the end).
* Axioms: only those of the standard library.  `Print Assumptions` follows every property
  theorem in `theories/Props*.v`.  Theorems over integers, lists and machine words are
  closed under the global context; theorems about `double`/`Complex` values use the
  stdlib Reals, i.e. `ClassicalDedekindReals.sig_forall_dec`,
  `ClassicalDedekindReals.sig_not_dec` and
  `FunctionalExtensionality.functional_extensionality_dep`
  (and `Classical_Prop.classic` where the trigonometric/`sqrt` library pulls it in).
* Nothing connects the model to the C++ mechanically: each definition cites the file and
  lines it models, and it was transcribed by reading.

## Modelling conventions

* `double` is idealised as exact reals `R`; a `Complex` is a pair of reals. Rounding,
  infinities and NaNs are not modelled.
* `size_t` is modelled as `nat`/`Z`/`N` without wrap-around, except where a property is
  about overflow (`ceilpow2`, `ceilpow`), where `mod 2^64` is explicit.
* Memory is a map from (block, offset) to cells `unallocated | uninitialised | value`.
  A read of anything but a value and a write to an unallocated cell are the distinct
  outcome *undefined behaviour*.  Iterations of an OpenMP loop are interleaved
  arbitrarily at the granularity of single memory accesses, so a theorem quantifies over
  every thread count and schedule.
* FFTW itself is external: a planned transform is a step that computes the strided
  multi-DFT documented by FFTW (unnormalised), with in-place/out-of-place mismatch the
  distinct outcome *exit with error* (fftw++.h `Setout`).
* MPI is external and modelled by `MpiMachine.v`: processes with private memory, non-blocking
  sends and receives matched in order per (pair, communicator), waits, arbitrary
  interleaving, sends completing eagerly or only at the rendezvous.  Touching a buffer in
  flight, waiting on an uninitialised request, overwriting an active request, unequal
  message lengths and accesses out of bounds are errors.  Collective operations
  (MPI_Ialltoall) are modelled as the point-to-point messages they consist of, in their own
  context; MPI_Comm_split by its documented result.
* Timing is an oracle: theorems quantify over every answer of the clock.

* Concurrency rule: two conflicting accesses by different iterations of a parallel loop are
  undefined behaviour, so every theorem that excludes UB also excludes data races; the
  theorems say "every execution ends, normally, in this one memory" (`WP`, `always`).
* fftw++.h: a plan is an external step with FFTW's documented result.  A batched execution
  on one thread reads all its inputs before it writes.  Wisdom text is abstracted to a list of
  entries; files survive a process crash (power loss and fsync are not modelled).
* Specifications are in `UtilsSpec PadSpec ConvSpec StatSpec ComplexSpec FftwSpec ...`;
  the model is in `*Model` and `PadKernels`; `Props*.v` contain the statements.

## Plan per property

See the table in the second half of this file (kept current with MANIFEST.json).

| id | model | proof |
|----|-------|-------|
| C01 | `nextfftsize` triple loop over N | loop invariant + division argument: minimal 7-smooth |
| C02 | bit smear, `ceilpow` bisection with mod 2^64 | invariants; overflow witnesses `_refuted` |
| C03 | `parameters` | arithmetic |
| C04 | `OptModel.v`: `parameters/check/optloop/opt/scan`, the four `Opt` classes and normal constructors, 64-bit words, clock oracle, `std::list::back()` on an empty list an oracle too; console output not modelled; M <= 2^26 (beyond it the size helpers may wrap) | loop rule with an invariant and a coverage predicate; termination measure; validity = `usable` of OptSpec |
| C05,C06 | `index`, `increment`, `residueBlocks`, `Dr` | explicit bijection |
| C07,C08 | kernels of `fftPad` in the memory model | per-iteration footprints + algebra of roots of unity |
| C09,C10,C13,C16 | `Convolution::convolveRaw` | composition of C05-C08; DFT convolution theorem |
| C11,C12 | constructor + in/out-of-place check; pointer arrays | witness executions (`_refuted`) |
| C14,C15 | interleaving semantics | metatheorem on disjoint footprints; every kernel theorem is stated for all interleavings and includes absence of UB |
| C17 | the three symmetrizers (`HermModel.v`), double memory, strided layouts; integer index arithmetic without wraparound, negative addresses are UB | loop rules for conjugating copies (reads and writes of different iterations disjoint), then the zeroing loops |
| C18,C45 | `LayerModel.v`: Convolution2 and Convolution3 as one layer over an inner convolution; `Team.v`: a team of threads, each running its list of rows, interleaved with the accesses of nested parallel loops | separation: a command that touches only the words it names (`tgood`) runs alone as in a team; the layer is specified over any row operation and instantiated twice |
| C19,C46 | `CenModel.v`: all forward and backward kernels of fftPadCentered, `kindex` (index with centered=true) | row-set calculus (`Fill.v`): each loop writes a set of rows of the work array, disjoint from the rows already written; folding of the two halves, radix-P stage and row transforms in `CenMath.v`; residue bookkeeping reused from fftPad through the pad `sh t` whose rows are the blocks of t |
| C47 | `Xf.v`: the object a convolution class is given, fftPad (`FP`) or fftPadCentered (`CP`), behind the interface of fftBase; Convolution, Convolution2, Convolution3 are modelled over it, so all of C10-C16, C18, C39-C41, C45 hold for both kinds | `XfProofs.v`, `XfBridge.v`: one specification of forward/backward passes for both kinds with the origin as parameter |
| C48 | `HerModel.v`: all forward and backward kernels of fftPadHermitian, its block sizes b and B, residues and index; FFTW's complex-to-real and real-to-complex transforms as external contracts on a memory whose words hold two doubles | row-set calculus as for C19; conjugate symmetry folds the negative-index half onto rows m-s (`HerMath.v`); p=2 and inner kernels through one invariant of the work array (`HerForward.v`) |
| C49 | the backward kernels of `HerModel.v` | real transforms leave rows r2c(y) in the work array (`HerB1.v`), inverse radix stage (`HerB4.v`), the folding loops write row j and its mirror image once each (`HerB2.v`, `HerB3.v`, `HerB5.v`), dispatch and pass in `HerB6.v`; the index congruence of C48 turns residues into the reported frequencies; orthogonality of the roots gives the round trip (`HerB7.v`) |
| C50 | `HConvModel.v`: realMultBinary and class Convolution over fftPadHermitian with C=1 (init, forward, operate, backward, convolveRaw, normalize) | one pass = fwd + oper + bwd (`HConv1.v`, `HConv2.v`), the three schedules q=1, loop2 and the general loop (`HConv3.v`); hdft turns the product of real spectra into the convolution of the completed sequences (`HConvMath.v`); for odd n the first pass reads the block forward did not write (`HConvProofs.v`) |
| C51 | `HLayerModel.v`: Convolution2/Convolution3 (the generic `layer` of `LayerModel.v`) whose last dimension is a Hermitian Convolution object (`HConvModel.v`) | the row operation is shown to meet the layer interface under the row condition 'entry 0 is real' (`HLayer1.v`, `HLayer2.v`), the condition follows from Hermitian symmetry of the stored plane (`HLayerMath.v`, `HLayerMath3.v`), which also give the convolution theorem for the extended array; `HLayerProofs.v`, `HLayerProofs3.v`, `PropsHLayer.v` |
| C52 | `RealModel.v`: fftPadReal with C=S=1, p<=2, one memory word per double (the layout the casts to `double*` rely on); Many and Inner kernels not modelled | kernels symbolically executed (`RLoops.v`, `RFft.v`, `RFwd.v`, `RBwd.v`), frequencies and mirror images form a permutation (`RealFreq.v`), shares add up (`RealProofs.v`), `RealThms.v`, `RealCases.v`; `PropsReal.v` |
| C53 | `RConvModel.v`: class Convolution over fftPadReal (C=S=1, p<=2), the constructor's pad(W) and the re-padding after backward included | steps with framing (`RConv1.v`, `RConv2.v`), the three schedules (`RConv3.v`), invariant 'W is padded' over all reachable memories (`RConvProofs.v`); `PropsRConv.v` |
| C54 | `MpiFftModel.v`: fft2dMPI, fft3dMPI (slabs) on the message passing machine of C33-C37: Setout, the local FFTW plans (read everything, then write), both code paths of the x transforms (strided, transposed), the transposes of C35 | local phases (`MpiFft1.v`), collective triples (`MpiFft2.v`), phases and DFT algebra (`MpiFft3.v`), histories (`MpiFft4.v`), top (`MpiFftProofs.v`); `PropsMpiFft.v` |
| C55 | `WrapModel.v`: HybridConvolution.h, cfftw++.cc, fftwpp.py (shape assertions, symmetrization, object creation with default M, A=2, B=1) on the models of C18, C50, C51; HermitianSymmetrize/X/XY of convolve.h; the optimizer's m, D, inplace are parameters; numpy arrays are C-contiguous complex128 (ctypes ndpointer checks the type) | symmetrization = scatter of conjugates (`Wrap1.v`), Hermitian arrays on integer wave vectors (`WrapSpec.v`, `Wrap2.v`), calls and histories (`Wrap3-5.v`), explicit padded sizes (`Wrap6.v`); `PropsWrap.v`, `PropsWrapM.v` |
| C56 | `MpiRFftModel.v`: rcfft2dMPI on the message passing machine with doubles as words and Complex blocks of two words: Setout, r2c/c2r plans along y (padded rows in place, dense out of place; the c2r input is left as arbitrary junk), x transforms, Shift, deNyquist, Normalize, the transposes of C35; `MpiR3Model.v`: rcfft3dMPI with slabs (pencils, Tyz not NULL, not modelled) | collective triples (`MpiColl.v`), local phases (`MpiRFft1.v`, `MpiRFft2.v`), DFT algebra (`MpiRFft3.v`), histories (`MpiRFft4.v`), top (`MpiRFftProofs.v`); `PropsMpiRFft.v`; in three dimensions `MpiR3a.v`, `MpiR3b.v`, `MpiR3c.v`, `MpiR3Proofs.v`; `PropsMpiR3.v` |
| C57 | `MpiCModel.v`: Convolution2MPI::convolve on the message passing machine: per residue block the x transforms of the A inputs into work arrays, transposes of the blocks to rows, the subconvolution of each local row with the index the code passes, transposes back, the backward transforms accumulated into the arrays or the auxiliary V, copies and normalisation; the local kernels are parameters with the frame conditions of C08-C12 (`local_kernels`), instantiated with padded transforms (`padkern`) | `MpiC1.v`-`MpiC3.v`: the collective logic of C56 carries the pointwise state of all arrays through the loops; the sum over the blocks becomes the inverse transform by the algebra of PadSpec; `MpiCProofs.v` composes histories; index dependence refuted by running one and two processes |
| C58 | `MpiHModel.v`: HermitianSymmetrizeXY/X and the set-up of d.reflect on the message passing machine, with point-to-point blocking sends and receives, statement by statement (loops over the local columns, xextra, Nyquist rows) | `MpiH1.v`-`MpiH4.v`: an invariant gives, for each process, its place in the global order of the columns; one message at a time is completed by `MpiRun.phase`, which transfers the run to every schedule; `MpiHProofs.v` compares with the symmetrised array of `MpiHSpec.v`; pencil case refuted on 2 x 2 processes |
| C59 | `DirModel.v`: tests/direct.h and direct.cc statement by statement on the memory model (sums, index bounds in signed arithmetic, strides, the final symmetrization call) | a sum loop rule (`Dir1.v`), nests of store loops (`Dir2.v`), Hermitian loops: bounds of the inner loops are exactly the stored modes (`Dir3.v`), composition with C55 (`DirAgree.v`, `DirAgree2.v`) |
| C45 (one column) | `LayerBad.v`: the smallest object with Sx=1 and D=2, run through the model | symbolic execution with the kernel specifications: the result is 4, not 6; the condition `ag_D` of `agree2` is needed (`C45_single_column_refuted`) |
| C20-C23 | fftw++.h batch splitting, Shift, Normalize, deNyquist | memory model / arithmetic |
| C24,C25 | `statistics` | induction over the history |
| C26-C28 | Complex.h, cmult-sse2.h | algebra over R; `_refuted` for arg/pow |
| C29-C32,C43,C44 | Array.h, align.h (allocation failure and stream I/O not modelled; array5(..,T*) does not compile when instantiated and is not modelled) | arithmetic; ownership state machine over all call histories; `_refuted` witnesses |
| C33,C34 | `localdimension`, `split`, `split3`, `MPIgroup`, `fill1_comm_sched` | arithmetic, wrap modelled |
| C35 | `mpitranspose` (`MpiTrModel.v`): all phases; the constructor's timing search is an oracle: any (a, alltoall). Not modelled: `Latency`, `time`, int overflow of byte counts, other threads | the machine is confluent, so one rendezvous run decides all executions (`one_run_decides`); the run is built phase by phase |
| C36 | the four gathers of mpiutils.h (`GatherModel.v`); int overflow of byte counts not modelled | same machine; rank 0 receives in rank order, by induction over the ranks |
| C37 | key comparison | lexicographic order |
| C38,C42 | file-system state machine with crash points; wisdom as entry lists | induction over prefixes and histories |
