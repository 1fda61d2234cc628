import json
P=[]
def add(title,statement,quant,why,anchors):
    P.append(dict(id="C%02d"%(len(P)+1),title=title,statement=statement,quantifier=quant,why_tests_cant=why,anchors=anchors))
add("nextfftsize returns the least 7-smooth size",
 "For every m>=1, nextfftsize(m) returns a number N>=m of the form 2^a 3^b 5^c 7^d, and no number of that form lies in [m,N).",
 "all sizes m >= 1 (below the machine-word overflow limit)","minimality is a statement about every 7-smooth number for every m; tests only sample m",
 ["convolve.cc:nextfftsize","utils.h:ceilpow2"])
add("Power-rounding helpers return the least power",
 "ceilpow2(n) is the least power of two >= n, ceilpow(p,n) the least power of p >= n, nextpuresize(m) the least pure power of 2,3,5 or 7 >= m, ispow2(n)/ispure(m) decide exactly those forms; outside the representable range the 64-bit code is shown to fail.",
 "all 64-bit n and all bases p>=2","exhaustive enumeration of 2^64 inputs is impossible, and the wrap-around inputs are rare",
 ["utils.h:ceilpow2","utils.h:ceilpow","convolve.cc:nextpuresize","convolve.cc:ispure","utils.h:ispow2"])
add("Padding geometry always covers the data",
 "For every data length L, requested padded length M>=L and block size m>=1, the derived p, n, q satisfy p*m>=L, m*q>=M, p minimal, and q is a multiple of p (or of p/2 in the even-centred/p=2 case); the transform length m*q never truncates the data.",
 "all L, M, m, centred or not","the parameters are integer functions of three unbounded sizes",
 ["convolve.cc:fftBase::parameters","convolve.cc:fftBase::common"])
add("Optimizer always delivers a usable plan",
 "Whatever the run-time timings are, the parameter search terminates and the (m,D,inplace) it selects satisfies the validity predicate of the chosen pad class, so the constructor never stops with an invalid parameter set when the defaults are used.",
 "all L, M, C, S, and all timing outcomes","the outcome depends on wall-clock timings: any test sees one timing oracle",
 ["convolve.cc:fftBase::OptBase::scan","convolve.cc:fftBase::OptBase::opt","convolve.cc:fftBase::OptBase::optloop","convolve.cc:fftBase::OptBase::check"])
add("Every Fourier mode is produced exactly once",
 "The map (residue r, output position i) -> index(r,i) over the residues visited by the residue loop and the positions each produces is a bijection onto {0,...,M-1}.",
 "all valid (L,M,m,C,D) of the complex pad","a missing or repeated mode appears only for special parity/divisibility combinations of unbounded parameters",
 ["convolve.h:fftBase::index","convolve.h:fftBase::increment","convolve.h:fftBase::noutputs"])
add("Residue loop visits all residues",
 "The loop r=0; r<R; r+=increment(r) visits, through the D residues processed per pass together with conjugate partners, each residue class modulo n exactly once and terminates.",
 "all n and valid D","ranges over all n, D pairs",
 ["convolve.h:fftBase::increment","convolve.h:fftBase::residueBlocks","convolve.h:fftBase::Dr","convolve.h:fftBase::nloops"])
add("Forward padded transform is the DFT of the zero-padded data",
 "For every valid parameter set, after forward(f,F,r,W) each output position i holds sum_j f[j] exp(2 pi i j index(r,i)/M), the transform of f padded with zeros to length M (exact arithmetic); input f is preserved when out-of-place/not overwriting.",
 "all lengths, all complex data, all valid (p,q,n,D,m), every copy c<C","a statement over all data vectors and all parameter combinations, which tests sample at a few points",
 ["convolve.cc:fftPad::forwardExplicit","convolve.cc:fftPad::forward1","convolve.cc:fftPad::forward2","convolve.cc:fftPad::forwardInner"])
add("Backward transform inverts the padded forward transform",
 "Running backward over all residues accumulates into f exactly M times the first L coefficients of the inverse DFT of the M modes; hence backward after forward is multiplication by M.",
 "all valid parameters and data","universally quantified over data and parameters",
 ["convolve.cc:fftPad::backward1","convolve.cc:fftPad::backward2","convolve.cc:fftPad::backwardInner","convolve.h:fftBase::normalization"])
add("1D convolution is alias-free",
 "Convolution::convolve on A=2 inputs of length L with M>=2L-1 replaces the first output by the exact linear convolution truncated to L terms; with smaller M the result is exactly the M-cyclic aliased sum restricted to [0,L).",
 "all L, M>=2L-1, data, valid parameters","dealiasing is a property of all data",
 ["convolve.cc:Convolution::convolveRaw","convolve.cc:multbinary","convolve.h:Convolution"])
add("Two-pass (loop2) schedule equals the generic schedule",
 "When the memory-saving two-pass schedule is selected (nloops==2, A>B, no overwrite) the outputs equal those of the generic residue loop.",
 "all A>B","the schedule is only chosen for particular A,B, and is wrong for some of them",
 ["convolve.cc:Convolution::convolveRaw","convolve.h:Convolution::init"])
add("A caller-supplied work array is used",
 "A convolution constructed with a caller-supplied work array W performs its transforms in that array and returns the same result as with an internally allocated one.",
 "all constructions with W != NULL","depends on plan in-place/out-of-place choices made at run time",
 ["convolve.h:Convolution::init","convolve.h:Convolution2","convolve.h:Convolution3"])
add("Convolution with more outputs than inputs is memory safe",
 "convolve(f) with B>A accesses only elements inside arrays it owns or was given.",
 "all A,B","out-of-bounds reads of pointer arrays usually go unnoticed in tests",
 ["convolve.cc:Convolution::convolveRaw"])
add("Repeated use of one convolution object is stateless",
 "Calling convolve any number of times with one object gives each time the result a fresh object would give; the pre-zeroed padding region of the work array is still zero afterwards whenever the code relies on it.",
 "all call histories","an arbitrary history of calls",
 ["convolve.h:Convolution","convolve.cc:Convolution::convolveRaw","convolve.cc:fftPad::padSingle"])
add("Results do not depend on the number of threads or the schedule",
 "For every parallel loop of the transforms, every interleaving of its iterations yields the same memory as the sequential loop, without data race.",
 "all thread counts and all interleavings","schedules are not reproducible in tests",
 ["parallel.h:PARALLEL","parallel.h:PARALLELIF","convolve.cc"])
add("Transforms stay inside their buffers",
 "forward/backward only read and write the documented extents: inputLength of f, outputSize of F, workSizeW of W; they never read uninitialised memory.",
 "all valid parameters","absence of out-of-bounds access for all parameters",
 ["convolve.h:fftBase::inputSize","convolve.h:fftBase::outputSize","convolve.h:fftBase::workSizeW"])
add("Correlation multiplier",
 "With multcorrelation the convolution object returns the (aliased-free on its support) cross-correlation sum_j f[j+k] conj(g[j]).",
 "all data","all data",
 ["convolve.cc:multcorrelation"])
add("Hermitian symmetrization yields Hermitian data",
 "HermitianSymmetrize, HermitianSymmetrizeX and HermitianSymmetrizeXY leave data satisfying F(-k)=conj F(k) on the symmetric planes, modify nothing else, are idempotent, and do not depend on the thread schedule.",
 "all sizes, data, schedules","all sizes and data",
 ["convolve.h:HermitianSymmetrize","convolve.h:HermitianSymmetrizeX","convolve.h:HermitianSymmetrizeXY"])
add("2D and 3D convolutions are exact",
 "Convolution2(fftx,ffty).convolve and Convolution3(fftx,ffty,fftz).convolve, with two inputs, one output, the binary product and M>=2L-1 in each dimension, store the exact multidimensional linear convolution in f[0] and change no word that is neither an array element nor work memory, for every number of threads and every assignment of rows to threads; strides that do not fit end the program in the Convolution3 constructor. (A single column, Sx=1, must not be batched, D=1.)",
 "all sizes, strides, padding schemes per dimension, data, thread counts, schedules and interleavings","the nested classes combine the code paths of every dimension with a parallel loop; tests sample a few sizes and one schedule",
 ["convolve.h:Convolution2","convolve.h:Convolution3","convolve.h:checkStrides"])
add("Centered pad transform",
 "fftPadCentered::forward gives, for all valid parameters and on every schedule, the DFT of length M of the data whose origin is at index floor(L/2), at the frequencies reported by index(); the passes of the residue loop cover every frequency exactly once; forward stays within the documented buffers, preserves its input (except in overwrite mode) and is deterministic.",
 "all valid parameters L, M, C, S, m, D, in/out of place, overwrite mode; all passes, buffers, data and schedules","fourteen kernels with parity-dependent code paths",
 ["convolve.cc:fftPadCentered"])
add("Thread blocks of multiple transforms partition the work",
 "When a batch of M transforms is split over T threads, the blocks are disjoint, cover all M transforms and differ in size by at most one; so the batch (out of place, or in place with the same layout) writes the DFT of each vector to its place and nothing else, for every thread count, timing result and schedule.",
 "all M, T, strides, data, timings and schedules","all M, T and schedules",
 ["fftw++.h:fftwblock::init","fftw++.h:fftwblock::Execute"])
add("fft0 shift centres the spectrum",
 "Shift multiplies element (i,j[,k]) by (-1)^(i+j...) for even sizes, is an involution, and so moves the Fourier origin to the centre; schedule independent.",
 "all even nx (and the documented odd handling), data, schedules","all sizes",
 ["fftw++.h:fftw::Shift"])
add("Normalized transforms are true inverses",
 "fftNormalized after the opposite-sign fft returns the original data (exact arithmetic).",
 "all sizes and data","all data",
 ["fftw++.h:fftw::Normalize","fftw++.h:fftNormalized"])
add("deNyquist zeroes exactly the Nyquist modes",
 "deNyquist in 1D/2D/3D zeroes exactly the Nyquist modes for even sizes and nothing else.",
 "all sizes","all sizes",
 ["fftw++.h:deNyquist"])
add("Running mean and variance are exact",
 "After any sequence of add() calls, statistics reports count, mean, unbiased variance, one-sided deviations' totals, min and max of exactly that sequence (exact arithmetic).",
 "all finite histories of add","all histories",
 ["statistics.h:statistics::add","statistics.h:statistics::mean","statistics.h:statistics::stdev"])
add("Running median",
 "median() after any sequence of add() calls is the median of that sequence.",
 "all finite histories","all histories",
 ["statistics.h:statistics::median","statistics.h:statistics::add"])
add("Complex arithmetic is the field of complex numbers",
 "Complex.h +,-,*,/ and compound assignments implement the field operations, sqrt returns the principal square root (square equals argument, real part >= 0), conj is an automorphism and abs2 multiplicative.",
 "all complex numbers (exact reals)","all reals",
 ["Complex.h"])
add("Complex power and argument",
 "arg returns the angle of z and pow(z,1)=z for every nonzero z.",
 "all complex z != 0","a single branch is wrong on a measure-zero set",
 ["Complex.h:arg","Complex.h:pow"])
add("Vectorized complex arithmetic equals scalar arithmetic",
 "ZMULT, ZCMULT, ZMULTI, CONJ and related vector helpers compute exactly the product, conjugate product, multiplication by i and conjugate.",
 "all operands","all operands",
 ["cmult-sse2.h"])
add("Multidimensional array indexing is injective and in bounds",
 "a(i,j,k,...) of array2..array5 maps the index box bijectively onto [0,size) in row-major order, so distinct in-range indices never alias and bounds-checked access accepts exactly in-range indices; offset Array classes shift that correctly.",
 "all dimensions","all sizes",
 ["Array.h:array2","Array.h:array3","Array.h:array4","Array.h:array5","Array.h:Array1"])
add("Array storage is freed exactly once",
 "For every sequence of array operations (allocate, share, Hold/Purge, assignment, swaparray, shift, destruction) each allocation is freed exactly once and never used after free.",
 "all operation histories","all histories",
 ["Array.h:array1","Array.h:swaparray","Array.h:leftshiftarray"])
add("array2 identity and scalar increment touch the diagonal",
 "Identity() sets the nx x ny identity matrix; a+=scalar adds to the diagonal only.",
 "all nx, ny","only wrong for special aspect ratios",
 ["Array.h:array2::Identity","Array.h:array2::operator +="])
add("Aligned allocation",
 "newAlign/ComplexAlign return storage aligned as requested, buffers of one multi-buffer allocation are pairwise disjoint and large enough, and deletion frees the original pointer.",
 "all sizes, alignments and underlying allocator answers","all allocator answers",
 ["align.h","Array.h:newAlign"])
add("MPI local dimensions partition the global extent",
 "The local extents and starts computed by every rank are contiguous, disjoint and cover the global dimension exactly, without communication.",
 "all N, all process counts","all N and P",
 ["mpi/mpitranspose.h:localdimension","mpi/mpiutils.h:split","mpi/mpigroup.h:MPIgroup"])
add("Round-robin communication schedule is deadlock free",
 "The all-to-all schedules of all ranks match pairwise at every step (if rank a talks to b at step k, then b talks to a at step k) and every rank meets every other exactly once.",
 "all process counts","all process counts, all ranks jointly",
 ["mpi/mpitranspose.cc:fill1_comm_sched"])
add("Distributed transpose",
 "localize0 turns a matrix distributed by rows into the same matrix distributed by columns, localize1 does the converse, and round trips restore the data, for every matrix, process count and blocking chosen by the constructor. Every execution, whatever the relative speed of the processes and whether or not MPI buffers sends, ends: no deadlock, no mismatched message, no access to a buffer in flight.",
 "all N, M, L, element sizes, process counts, blockings (a,alltoall), histories of calls, interleavings and buffering behaviours","deadlocks and races depend on the schedule and on the MPI implementation's buffering",
 ["mpi/mpitranspose.h:mpitranspose"])
add("Gather collects the global array",
 "gatherx/gathery/gatheryz/gatherxy reassemble the global array exactly from the local pieces on process 0, leave everything else as it was, leak nothing, and end without deadlock in every execution, including when some processes own nothing.",
 "all sizes, process grids, interleavings and buffering behaviours","a run shows one schedule; deadlock depends on MPI's buffering",
 ["mpi/mpiutils.h:gathery","mpi/mpiutils.h:gatherxy"])
add("Thread table lookups are keyed consistently",
 "The plan-cache key comparison is a strict weak order that distinguishes exactly different keys, so a thread-count lookup never returns the entry of a different size.",
 "all keys","all triples of keys",
 ["fftw++.h:keyless","fftw++.h:Threadtable"])
add("Wisdom file is never torn",
 "At every crash point during SaveWisdom the wisdom file contains either its old or its complete new content.",
 "all crash points","crash points",
 ["fftw++.cc:fftw::SaveWisdom"])
add("Multipliers see the right frequencies",
 "A multiplier that looks up the frequency of word i of its block as index(r,offset+i), with the r and offset it is given, sees the frequency actually stored in that word; so a frequency-dependent multiplier computes the corresponding Fourier multiplier operator.",
 "all valid parameters without overwrite, all frequency-dependent pointwise multipliers, all data","all parameters and multipliers",
 ["convolve.h:Convolution::operate","convolve.h:Indices","convolve.h:fftPad::index"])
add("Convolution with the trivial multiplier is the identity",
 "With A=B and multNone, convolve leaves all data arrays unchanged.",
 "all valid parameters and data","all sizes",
 ["convolve.cc:multNone","convolve.h:Convolution::convolve"])
add("convolve with an offset",
 "convolve(f,offset) performs the convolution on the data at f[a]+offset and changes no other word of the caller's memory.",
 "all offsets, valid parameters and data","all offsets",
 ["convolve.cc:Convolution::convolveRaw(Complex**,size_t)","convolve.h:Convolution::convolve"])
add("Wisdom accumulates",
 "After saveWisdom the wisdom file contains every problem planned in this process, everything that was in the file before and everything other processes saved before the save, and nothing else.",
 "all histories of planning, saving and saves by other processes; all file names","all histories",
 ["fftw++.cc:saveWisdom","fftw++.cc:loadWisdom","fftw++.h:fftw::planner"])
add("Whole-array operations are elementwise",
 "Load, assignment from a pointer, and the array/scalar compound assignments act on exactly the elements of the array, each independently; Min and Max return the least and greatest element and exit on an empty array.",
 "all sizes, contents and element orders","all sizes and contents",
 ["Array.h:array1::Load","Array.h:array1::Min","Array.h:array1::Max"])
add("Assignment accepts equal shapes and swaparray exchanges arrays",
 "Assignment between arrays of equal shape and offsets is accepted and between different shapes is refused (checking build); swaparray exchanges two arrays of any shapes.",
 "all shapes and offsets","all shapes",
 ["Array.h:Array3::operator =","Array.h:Array4::operator =","Array.h:Array5::operator =","Array.h:swaparray"])
add("Multidimensional convolutions of any shape",
 "For any numbers A of inputs and B of outputs and any pointwise operation, possibly depending on the frequency that the multiplication routine reads from its indices argument, Convolution2/Convolution3.convolve store the inverse multidimensional transform of the operation applied to the zero-padded transforms of the inputs, divided by the number of modes; the result of a call does not depend on earlier calls.",
 "all A, B, operations, sizes, strides, histories, thread counts, schedules and interleavings","all operations and histories",
 ["convolve.h:Convolution2","convolve.h:Convolution3","convolve.h:Indices","convolve.h:fftBase::index"])
add("Centered backward and round trip",
 "fftPadCentered::backward adds exactly its pass's share of the inverse of the centered transform to f (setting f in the first pass); the shares of all passes add up to the whole inverse, so forward and backward over all residues multiplies the data by M, also in overwrite mode; backward stays within the documented buffers and is deterministic on every schedule.",
 "all valid parameters L, M, C, S, m, D, in/out of place, overwrite mode; all passes, buffers, data and schedules","fourteen kernels with parity-dependent code paths",
 ["convolve.cc:fftPadCentered"])
add("Centered convolutions are exact",
 "With fftPadCentered transforms (data whose entry j stands for the coordinate j-floor(L/2)) in one, two or three dimensions, convolve stores the linear convolution (or correlation) about that origin whenever M is at least L+floor(L/2) and at least 2L-1-floor(L/2) in each dimension, the cyclic one otherwise, and changes no word outside the data and the work arrays; fftPad and fftPadCentered may be mixed in different dimensions.",
 "all valid parameters, data, thread counts, schedules and interleavings","parity-dependent kernels, all sizes",
 ["convolve.h:fftPadCentered","convolve.h:Convolution","convolve.h:Convolution2","convolve.h:Convolution3"])
add("Hermitian forward transforms",
 "fftPadHermitian::forward(f,F,r,W) on Hermitian data given by its nonnegative-index half (f_0 real) leaves in F, as real numbers, the values at the frequencies reported by index(r,.) of the M-point transform sum over |j|<H of f_j exp(2 pi i j k/M) with f_{-j}=conj f_j; the passes of the loop produce each of the M frequencies exactly once; nothing else changes and every schedule stays in the documented buffers.",
 "all valid parameters L, M, C, m, D=2, in/out of place; all passes, buffers, data and schedules","explicit, p=2, multiple-copy and inner kernels with parity-dependent code paths, all sizes",
 ["convolve.cc:fftPadHermitian","convolve.h:fftPadHermitian"])
add("Hermitian backward and round trip",
 "fftPadHermitian::backward(F,f,r,W) adds to the stored nonnegative-index half exactly its pass's share of the inverse transform of the real values in F (pass 0 sets f); the shares of all passes add up to the whole inverse, so forward and backward over all passes multiplies the data by M; backward stays in the documented buffers, reads nothing uninitialised and is deterministic on every schedule.",
 "all valid parameters L, M, C, m, D=2, in/out of place; all passes, buffers, data and schedules","explicit, p=2, multiple-copy and inner kernels with parity-dependent code paths, all sizes",
 ["convolve.cc:fftPadHermitian","convolve.h:fftPadHermitian"])
add("Hermitian convolutions",
 "Constructing a Convolution over fftPadHermitian with realMultBinary and calling convolve on the nonnegative-index halves (f_0 real) of two Hermitian sequences stores the same half of their linear convolution when M >= 3*ceil(L/2)-2 (the cyclic one modulo the padded size otherwise), on every schedule, changing nothing else and never reading an indeterminate value.",
 "all valid parameters L, M, m, D, in/out of place, both loop structures; all data, buffers, thread counts and schedules","all sizes and parities; uninitialised reads do not show in results",
 ["convolve.h:Convolution","convolve.h:Convolution::operate","convolve.cc:realMultBinary","convolve.cc:fftPadHermitian","convolve.cc:Convolution::convolveRaw"])
add("Multidimensional Hermitian convolutions",
 "Convolution2 and Convolution3 over fftPadCentered transforms in the leading dimensions and a fftPadHermitian in the last one, with realMultBinary, given the stored halves of two Hermitian arrays (symmetric on the plane of last index 0), store the same half of their linear convolution about the origin when the padding is enough (3c<M, or 3c-1<=M for even L with zero Nyquist row, c=floor(L/2); M>=3*ceil(L/2)-2 in the last dimension) and of the cyclic one modulo the padded sizes otherwise; on every thread schedule and interleaving without race or undefined behaviour, changing nothing else, after any history of calls on the object (for odd n in the last dimension see C50). A Convolution3 object whose transforms have strides that do not fit each other ends the program in its constructor.",
 "all valid parameters, strides, in/out of place, thread counts, schedules, interleavings, buffers, Hermitian data and call histories; last dimension explicit or with an even number n of residues","all sizes, parities and interleavings",
 ["convolve.h:Convolution2","convolve.h:Convolution3","convolve.h:fftPadHermitian","convolve.cc:realMultBinary"])
add("Real-data forward and backward transforms",
 "fftPadReal::forward(f,F,r,W) on L real numbers leaves in F, for each pass r of the residue loop, their zero-padded M-point transform at frequencies of which, with the mirrored ones M-k (conjugate values), the passes produce each of the M exactly once; backward adds exactly its pass's share of the inverse to f (setting it in pass 0), so forward and backward over all passes multiplies the data by M; the frequency of output i of pass r is index(r,i); pad(W) writes the zeros forward relies on; every schedule stays in the documented buffers and is deterministic.",
 "all valid parameters L, M, C, S, m, D, in/out of place; all passes, buffers, data and schedules","explicit, p=1, p=2, multiple-copy and inner kernels with parity-dependent code paths, all sizes",
 ["convolve.cc:fftPadReal","convolve.h:fftPadReal","convolve.h:fftBase::index"])
add("Real convolutions",
 "Constructing a Convolution over fftPadReal with multBinary and calling convolve on two arrays of L real numbers stores in the first their linear convolution when M >= 2L-1 (the cyclic one modulo the padded size otherwise), on every schedule, for every history of earlier calls on the object, changing nothing outside that array and the object's own arrays, with no read of indeterminate values or access outside the documented sizes.",
 "all valid parameters L, M, m, D, in/out of place, all three loop structures; all data, buffers, call histories, thread counts and schedules","all sizes, parities and histories; the zero padding of the work array must survive every pass",
 ["convolve.h:Convolution","convolve.cc:Convolution::convolveRaw","convolve.cc:fftPadReal","convolve.cc:multBinary"])
add("Distributed Fourier transforms",
 "On every group of processes, fft2dMPI and (in the slab decomposition) fft3dMPI: Forward(in,out) takes an array distributed over its first dimension to its full Fourier transform distributed over the second, Backward the other way with the opposite sign, and Normalize after both restores the data, in place and out of place, for any history of calls on any arrays; all interleavings and message bufferings end without deadlock, mismatched messages or access outside the documented storage split::n, and no other array changes. The documented in-place call with the output argument left out does the same.",
 "all array sizes (divisible by the number of processes or not), process counts, blocking parameters chosen by the constructor, signs, data, histories of calls, interleavings and send bufferings","every interleaving of every number of processes; idle processes; the transform must survive non-divisible distributions",
 ["mpi/mpifftw++.h:fft2dMPI","mpi/mpifftw++.h:fft3dMPI","mpi/mpifftw++.cc:iForward","mpi/mpifftw++.cc:iBackward","mpi/mpigroup.h:split"])
add("Python and C wrappers",
 "Creating fftwpp.Convolution(shape) or HConvolution(shape) in one, two or three dimensions and calling convolve(f,g) on C-contiguous complex arrays of that shape leaves in f their linear convolution (for HConvolution: the stored half of the convolution of the two Hermitian arrays that the stored data determine, the redundant entries, the imaginary part of the origin and the Nyquist rows being ignored), whatever parameters the optimizer picked, for every call of a sequence of calls on any data, on every schedule, touching nothing but f, g and the object's own memory; Convolution raises an error on arrays of any other shape. The C++ Hybrid* classes used with two inputs give the same results with padded sizes chosen per dimension by the caller, provided each is large enough for its own dimension (2L-1; 3H-2 for the Hermitian dimension; free of aliases for the other centered ones). The default padding of the C++ Hybrid* classes suffices for the number of inputs given.",
 "all shapes, optimizer choices, data, call histories, thread counts, schedules and buffers","all shapes, parities, optimizer outcomes, histories and schedules",
 ["wrappers/fftwpp.py:Convolution","wrappers/fftwpp.py:HConvolution","wrappers/cfftw++.cc:fftwpp_hconv2d_convolve","wrappers/HybridConvolution.h","convolve.h:HermitianSymmetrizeXY"])
add("Distributed real transforms: every schedule computes the real-to-complex DFT and its inverse",
    "rcfft2dMPI: for every X x Y real array distributed by rows over any number of processes, and every interleaving of the processes and buffering of messages, Forward ends on all processes with every process holding its columns of the X x (Y/2+1) half of the discrete Fourier transform, out of place keeping its input; Backward of an array with the symmetry of the transform of a real array ends with the rows of the (unnormalised, real) inverse, whatever FFTW's complex-to-real transform leaves in its input; Forward0/Backward0 count the modes in x from -X/2 for even X; Forward, Backward, Normalize restores the data; deNyquist removes exactly the Nyquist modes; in place (padded rows) or out of place (dense rows), in any history of calls; no access lies outside the arrays and other arrays are not written. rcfft3dMPI with the slab decomposition does the same in three dimensions: rows are X-planes of the real X x Y x Z array, the result is the X x Y x (Z/2+1) half of the transform distributed in y, the symmetry relates the planes kz=0 and kz=Z/2 to themselves, and Forward0/Backward0 count the modes in x and in y from -X/2 and -Y/2 for even X and Y. The in-place interface with the defaulted output argument performs the transform in place.",
    "every X, Y, Z, number of processes, transpose blocking, data, junk left by the complex-to-real transform, interleaving and message buffering, and every history of Forward, Backward, Forward0, Backward0, Normalize and deNyquist calls on any arrays, in place or out of place",
    "mpi/tests/fft2r.cc and mpi/tests/fft3r.cc run one grid per launch on one schedule with a divisible number of processes; the junk in the input of a complex-to-real transform depends on the FFTW plan; the number of schedules and process counts with empty shares is unbounded",
    ["mpi/mpifftw++.h:rcfft2dMPI","mpi/mpifftw++.h:rcfft2dMPI::deNyquist","mpi/mpifftw++.cc:rcfft2dMPI::iForward","mpi/mpifftw++.cc:rcfft2dMPI::iBackward","mpi/mpifftw++.cc:rcfft2dMPI::Shift","mpi/mpifftw++.h:rcfft3dMPI","mpi/mpifftw++.cc:rcfft3dMPI::iForward","mpi/mpifftw++.cc:rcfft3dMPI::iBackward","mpi/mpifftw++.cc:rcfft3dMPI::Shift","fftw++.h:Normalize","fftw++.h:Setout"])
add("Distributed convolution: every schedule computes the convolution",
    "Convolution2MPI::convolve(f): for every Lx x Ly arrays distributed by columns over any number of processes (also idle ones), every interleaving of the processes and buffering of messages ends on all processes, without deadlock, mismatched messages or access outside the documented storage, with the first B arrays holding the columns of the same convolution that one process computes: the inverse padded transform in x of the rows convolved at each of the padded frequencies. With two inputs, a linear convolution of the rows and M >= 2 Lx - 1 this is the linear convolution in two dimensions. The other inputs are kept; nothing outside the documented arrays changes; repeated calls on the same object have the same effect. Multipliers that depend on the frequency get the same indices for any number of processes.",
    "all sizes (divisible by the number of processes or not), process counts, transpose blocking, numbers of inputs and outputs, residue schedules, data, histories of calls, interleavings and send bufferings",
    "mpi/tests run one grid per launch on one schedule; interleavings, distributions and residue schedules are unbounded",
    ["mpi/mpiconvolve.h:Convolution2MPI","mpi/mpiconvolve.h:outputSplit","convolve.h:Convolution2","convolve.cc:fftPad"])
add("Distributed Hermitian symmetrization",
    "HermitianSymmetrizeXY (three dimensions, slab decomposition) and HermitianSymmetrizeX on a group of processes: for every array of modes distributed by columns, every interleaving of the processes and buffering of messages ends on all processes, without deadlock, mismatched messages or access outside the documented storage, with each process holding its part of the array that the serial routine makes: on the plane z=0 the mode at (-x,-y) is the conjugate of the mode at (x,y) of the upper half, the origin is real, and the Nyquist modes of even sizes are zero on all planes. The first call finds for each column the process that holds its mirror image. Nothing else changes.",
    "all sizes, parities, process counts (also idle processes, non-divisible distributions, columns whose mirror image is on the same process), data, interleavings and send bufferings",
    "the exchange pattern depends on the distribution: tests run one grid per launch on one schedule, and blocking sends that happen to be buffered hide deadlocks",
    ["mpi/mpiconvolve.h:HermitianSymmetrizeX","mpi/mpiconvolve.cc:HermitianSymmetrizeXY","mpi/mpigroup.h:split3"])
add("The reference convolutions of the tests are the convolutions",
    "The direct convolutions that the tests compare with (directconv, convolveC, autoconvolve, directconv2, directconv3, directconvh, directconvh2, directconvh3): for every size (odd or even), row and plane stride, and data, h receives at each index exactly the sum over all pairs of stored modes of the products f g - for Hermitian data including the modes given only by their complex conjugates -, f and g are only read (except that symmetrize=true first applies the Hermitian symmetrization), no access lies outside the arrays, and nothing but h is written. So running the direct convolution and then a convolution object on the same data ends with the same numbers in both outputs.",
    "all sizes, parities, strides, data, positions of the arrays; for the agreement also all parameters of the convolution objects, residue schedules and schedules of the threads",
    "a test trusts its own oracle: a wrong bound in directconvh2 for an untested parity would blame or excuse the library",
    ["tests/direct.h:directconv","tests/direct.h:directconv2","tests/direct.h:directconv3","tests/direct.cc:directconvh","tests/direct.cc:directconvh2","tests/direct.cc:directconvh3"])
with open('/verif/properties.jsonl','w') as f:
    for p in P: f.write(json.dumps(p)+"\n")
print(len(P))
