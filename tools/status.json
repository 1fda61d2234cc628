{
 "C01": [
  "proved",
  "64-bit wrap modelled; 1<=m<=2^61"
 ],
 "C02": [
  "proved",
  "least powers inside the range where 64-bit arithmetic does not wrap; wrap-around failures exhibited as _refuted"
 ],
 "C03": [
  "proved",
  "non-centered and centered geometry; real and Hermitian parameter variants not modelled"
 ],
 "C05": [
  "proved",
  "complex, non-centered fftPad"
 ],
 "C06": [
  "proved",
  "complex, non-centered fftPad"
 ],
 "C07": [
  "proved",
  "complex, non-centered fftPad: explicit, one/two/inner, Many and overwrite kernels"
 ],
 "C08": [
  "proved",
  "complex, non-centered fftPad: pass, sum over passes, round trip, overwrite"
 ],
 "C09": [
  "proved",
  "linear for M>=2L-1, cyclic of period m*q for every M"
 ],
 "C10": [
  "partial",
  "refuted in general (A=3,B=1); proved whenever A-B divides B"
 ],
 "C11": [
  "partial",
  "refuted: out of place, explicit padding, user W always exits; in place the argument is irrelevant"
 ],
 "C12": [
  "partial",
  "refuted for A=1,B=2,D=2; safe with one residue per pass"
 ],
 "C13": [
  "proved",
  "any pointwise multiplier, any history of caller actions not touching the work array"
 ],
 "C14": [
  "proved",
  "forward, backward and whole convolve: unique outcome over all interleavings, races are UB"
 ],
 "C15": [
  "proved",
  "forward, backward and convolve"
 ],
 "C16": [
  "proved",
  "M>=2L-1"
 ],
 "C39": [
  "partial",
  "refuted when the first pass has several blocks; proved otherwise"
 ],
 "C40": [
  "proved",
  ""
 ],
 "C41": [
  "proved",
  "A>=B"
 ],
 "C24": [
  "proved",
  "all sequences of reports, exact arithmetic"
 ],
 "C25": [
  "proved",
  "all sequences of insertions"
 ],
 "C26": [
  "proved",
  "real-arithmetic model of Complex.h"
 ],
 "C27": [
  "partial",
  "refuted on the negative real axis; principal value and powers proved elsewhere"
 ],
 "C28": [
  "proved",
  ""
 ],
 "C20": [
  "proved",
  "complex and real batches, every thread count, timing and schedule; in place with different input and output layouts (not a documented use) races: exhibited as _refuted"
 ],
 "C21": [
  "proved",
  "2D and 3D, complex and half-complex; odd sizes exit"
 ],
 "C22": [
  "partial",
  "complex and real 1D/2D/3D proved; multiple 1D transforms (Mfft1d::fftNormalized) refuted: Normalize writes outside the output"
 ],
 "C23": [
  "proved",
  "2D and 3D"
 ],
 "C37": [
  "proved",
  ""
 ],
 "C38": [
  "proved",
  "crash of the process at any system call; power loss/fsync not modelled; failed write exhibited as _refuted"
 ],
 "C42": [
  "partial",
  "proved for a plain file name with no concurrent saver between reload and rename; directory names and concurrent savers refuted"
 ],
 "C29": [
  "proved",
  "array1..5 and Array1..5, both subscripting forms, both builds; exact integers"
 ],
 "C30": [
  "partial",
  "no double free for all histories; exactly once for disciplined histories; leaks (Hold, swaparray, Allocate with NDEBUG), wrong deallocation function, use after free on self-view assignment and destructor overruns exhibited as _refuted"
 ],
 "C31": [
  "partial",
  "proved for nx<=ny+1 (and cubes in 3D); refuted for taller arrays"
 ],
 "C32": [
  "proved",
  "the bundled posix_memalign0/free0 and the buffer arithmetic; alignment 0 and empty deleteAlign of Array.h exhibited as _refuted; the system posix_memalign is external"
 ],
 "C43": [
  "proved",
  ""
 ],
 "C44": [
  "partial",
  "Array4=array4 with unequal extents and swaparray of array3 with different shapes refuted"
 ],
 "C33": [
  "proved",
  "int arithmetic with overflow modelled; overflow near 2^31 exhibited as _refuted"
 ],
 "C34": [
  "proved",
  ""
 ],
 "C35": [
  "proved",
  "every matrix, process count, blocking (a,alltoall), interleaving and send buffering; in place and out of place; any history of calls; out-of-place localize0 in compact mode exits: exhibited as _refuted"
 ],
 "C36": [
  "proved",
  "every size, process count and process grid; every interleaving and send buffering; sizes whose byte counts overflow int are not modelled"
 ],
 "C04": [
  "proved",
  "all four pad classes, 1<=L<=M<=2^26, any forced m<=2^32, D, I, any clock (NaN included); 64-bit wrap modelled. _refuted: std::list::back() on an empty list in every default run; Application.m overwritten by the centered/Hermitian constructors; Explicit mode never times some candidates"
 ],
 "C17": [
  "proved",
  "HermitianSymmetrize, HermitianSymmetrizeX (strided and compact) and HermitianSymmetrizeXY: Hermitian on the symmetric line/plane, given modes kept, Nyquist row/planes zeroed, every other word untouched, idempotent, under every schedule; origin must have room for the negative modes (Hx<=x0+1) and rows must not overlap (Hy<=Sx; Hz<=Sy, (y0+Hy)*Sy<=Sx)"
 ],
 "C18": [
  "proved",
  "2D and 3D, every parameter set per dimension with Sy=1 (2D), Sx>1 or D=1, every team size, row assignment and interleaving; forward/backward loops of the layer are sequential in the model (in the code their iterations are the threads of the fftPad kernels)"
 ],
 "C45": [
  "partial",
  "agree2/agree3: B<=A; A=B+1 when the outer transform runs in two residue loops; A-B divides B when the innermost does (C10 refutes the claim without it); D=1 if Sx=1 (needed: C45_single_column_refuted). Frequencies: not in overwrite mode and not for D0>1 in the innermost transform"
 ],
 "C19": [
  "proved",
  "fftPadCentered: explicit (fast and slow), p=2, inner, Many and overwrite forward kernels, and index()"
 ],
 "C46": [
  "proved",
  "fftPadCentered: explicit (fast and slow), p=2, inner, Many and overwrite backward kernels; backward destroys F"
 ],
 "C47": [
  "proved",
  "1D linear, cyclic and correlation; 2D and 3D linear with any mix of fftPad and fftPadCentered, same side conditions as C18 (agree2/agree3)"
 ],
 "C48": [
  "proved",
  "fftPadHermitian: explicit, p=2, Many and inner forward kernels; FFTW c2r as external contract; user must supply real f_0"
 ],
 "C49": [
  "proved",
  "All backward kernels of fftPadHermitian, hbackward's share of the inverse per pass, sum over passes, round trip and schedule safety."
 ],
 "C50": [
  "partial",
  "The convolution, frame and safety are proved for q=1, for even n, and for odd n with initialised transform buffers. For odd n and freshly allocated buffers the last clause is refuted (C50_fresh_buffers_refuted): operate multiplies a block that forward did not write."
 ],
 "C51": [
  "proved",
  "Two and three dimensions, cyclic and linear convolution, frame, call history. The last dimension must be explicit (q=1) or have even n (hypothesis hag_n), as the quantifier says; for odd n the code reads uninitialised words (C50)."
 ],
 "C52": [
  "partial",
  "Proved for C=S=1 and p<=2 (kernels forwardExplicit, forward1, forward2 and their inverses, padSingle, all D, in and out of place). Missing: the Many (S>1) and Inner (p>2) kernels. The clause on index is refuted (C52_index_refuted) for pass 0 and holds for the middle passes with D=1 (C52_index_middle_passes)."
 ],
 "C53": [
  "partial",
  "Proved for C=S=1, p<=2, A=2, B=1 with multBinary: explicit, two-pass and general schedules, in and out of place. Missing: the Inner kernels (p>2) of fftPadReal."
 ],
 "C54": [
  "partial",
  "Proved for rcfft2dMPI and for rcfft3dMPI with slabs, with explicit output argument: both transforms, the normalised round trip, every history, all schedules, fft2dMPI and fft3dMPI in slabs. The last clause is refuted (C54_default_output_refuted, C54_default_output3_refuted): with the default output NULL, ForwardWait/BackwardWait are given the null pointer. Missing: pencil decomposition of fft3dMPI."
 ],
 "C55": [
  "partial",
  "Proved: all six classes, single calls and histories, symmetrization, wrong shapes, explicit padded sizes of the C++ classes (C55_explicit_padding*). Missing: second and third dimensions all of length 1 with D>1 in the first; last dimension of HConvolution with an odd number n>1 of residues (C55_odd_residues_refuted: indeterminate values are read); the default-padding clause is refuted for Hermitian classes with A>=3 (C55_default_padding_refuted)."
 ],
 "C56": [
  "partial",
  "Proved for rcfft2dMPI and for rcfft3dMPI with slabs, with explicit output argument: both transforms, shifted and unshifted, the normalised round trip, every history, all schedules, any junk. Refuted: the default output NULL (C56_default_output_refuted, C56_backward0_default_output_refuted, and the same for rcfft3dMPI), and deNyquist on a process whose empty share of the columns starts at the end Y/2+1, e.g. Y=6 on 3 processes (C56_deNyquist_idle_refuted: it writes before its array); histories of rcfft2dMPI exclude these. Missing: rcfft3dMPI with the pencil decomposition (Tyz not NULL)."
 ],
 "C57": [
  "partial",
  "Proved for Convolution2MPI on fftPad kernels without overwrite and loop2: any number of processes with any distribution, any blocking, numbers of inputs and outputs, number of residue blocks, history of calls on the object, all schedules; result equal to the serial padded convolution, the linear one for M>=2Lx-1 (C57_padded_partial, C57_linear_partial, C57_history_partial). Missing: the modes overwrite and loop2 with overlapped transposes, Convolution3MPI; local kernels are atomic. The case Ly=1 on several processes is excluded (MPIgroup never makes such a group). Refuted: a multiplier that looks at its index gets the local row number without the offset of the process (C57_index_refuted)."
 ],
 "C58": [
  "partial",
  "Proved for the slab decomposition in three dimensions and for HermitianSymmetrizeX: any sizes, parities, distribution, schedules; deadlock free with blocking point-to-point sends and receives (C58_symmetrize3_partial, C58_symmetrize2); the first call's table of mirror processes (C58_reflect; the Allgather of the starting columns is taken as known to all processes); the result has Hermitian symmetry (C58_symmetric). One process in all calls the serial routine of C55. Refuted for pencils (C58_pencil_refuted): processes with d.z0 != 0 return before removing the Nyquist modes that the serial routine removes on all planes. Missing: the rest of the pencil case (sub-communicators)."
 ],
 "C59": [
  "partial",
  "Proved for every size, parity, stride and data in exact arithmetic: all direct convolutions (C59_direct .. C59_hermitian3_given), and their agreement with the convolution objects of the wrappers in one, two and three dimensions, complex and Hermitian (C59_agrees*). Refuted part: directconvh2 with padded rows and symmetrize=true symmetrizes as if the rows were dense (C59_stride_refuted); the tests pass symmetrize=false there."
 ]
}