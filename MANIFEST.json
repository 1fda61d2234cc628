{
 "claims": [
  {
   "property": "C01",
   "status": "proved",
   "theorems": [
    "C01_nextfftsize_least"
   ],
   "note": "64-bit wrap modelled; 1<=m<=2^61"
  },
  {
   "property": "C02",
   "status": "proved",
   "theorems": [
    "C02_ceilpow2_least",
    "C02_ceilpow2_out_of_range_refuted",
    "C02_ceilpow_least",
    "C02_ceilpow_overflow_refuted",
    "C02_ceilpow_diverges_refuted",
    "C02_nextpuresize_least",
    "C02_ispow2_iff",
    "C02_ispure_iff",
    "C02_ispure_overflow_refuted",
    "C02_ceilquotient",
    "C02_paddings"
   ],
   "note": "least powers inside the range where 64-bit arithmetic does not wrap; wrap-around failures exhibited as _refuted"
  },
  {
   "property": "C03",
   "status": "proved",
   "theorems": [
    "C03_geometry"
   ],
   "note": "non-centered and centered geometry; real and Hermitian parameter variants not modelled"
  },
  {
   "property": "C04",
   "status": "proved",
   "theorems": [
    "C04_always_built",
    "C04_argument_errors_stop",
    "C04_forced_or_fallback",
    "C04_usable_choice_is_used",
    "C04_fastest",
    "C04_explicit_never_timed_refuted",
    "C04_back_on_empty_list_refuted",
    "C04_application_kept",
    "C04_application_changed_refuted",
    "C04_complex_pad_wellformed"
   ],
   "note": "all four pad classes, 1<=L<=M<=2^26, any forced m<=2^32, D, I, any clock (NaN included); 64-bit wrap modelled. _refuted: std::list::back() on an empty list in every default run; Application.m overwritten by the centered/Hermitian constructors; Explicit mode never times some candidates"
  },
  {
   "property": "C05",
   "status": "proved",
   "theorems": [
    "C05_index_bijection"
   ],
   "note": "complex, non-centered fftPad"
  },
  {
   "property": "C06",
   "status": "proved",
   "theorems": [
    "C06_residue_loop_terminates",
    "C06_each_residue_once"
   ],
   "note": "complex, non-centered fftPad"
  },
  {
   "property": "C07",
   "status": "proved",
   "theorems": [
    "C07_forward_is_padded_dft",
    "C07_pad_establishes_padding",
    "C07_forward_overwrite"
   ],
   "note": "complex, non-centered fftPad: explicit, one/two/inner, Many and overwrite kernels"
  },
  {
   "property": "C08",
   "status": "proved",
   "theorems": [
    "C08_backward_pass",
    "C08_passes_add_up",
    "C08_roundtrip",
    "C08_backward_overwrite"
   ],
   "note": "complex, non-centered fftPad: pass, sum over passes, round trip, overwrite"
  },
  {
   "property": "C09",
   "status": "proved",
   "theorems": [
    "C09_linear_convolution",
    "C09_cyclic_convolution"
   ],
   "note": "linear for M>=2L-1, cyclic of period m*q for every M"
  },
  {
   "property": "C10",
   "status": "partial",
   "theorems": [
    "C10_any_schedule_partial",
    "C10_two_pass_schedule_refuted"
   ],
   "note": "refuted in general (A=3,B=1); proved whenever A-B divides B"
  },
  {
   "property": "C11",
   "status": "partial",
   "theorems": [
    "C11_user_work_array_refuted",
    "C11_user_work_array_inplace_partial"
   ],
   "note": "refuted: out of place, explicit padding, user W always exits; in place the argument is irrelevant"
  },
  {
   "property": "C12",
   "status": "partial",
   "theorems": [
    "C12_more_outputs_refuted",
    "C12_any_outputs_partial"
   ],
   "note": "refuted for A=1,B=2,D=2; safe with one residue per pass"
  },
  {
   "property": "C13",
   "status": "proved",
   "theorems": [
    "C13_history_independence",
    "C13_repeated_linear_convolution"
   ],
   "note": "any pointwise multiplier, any history of caller actions not touching the work array"
  },
  {
   "property": "C14",
   "status": "proved",
   "theorems": [
    "C14_convolve_deterministic",
    "C14_forward_deterministic",
    "C14_backward_deterministic"
   ],
   "note": "forward, backward and whole convolve: unique outcome over all interleavings, races are UB"
  },
  {
   "property": "C15",
   "status": "proved",
   "theorems": [
    "C15_convolve_in_bounds",
    "C15_forward_in_bounds",
    "C15_backward_in_bounds",
    "C15_pass_fits"
   ],
   "note": "forward, backward and convolve"
  },
  {
   "property": "C16",
   "status": "proved",
   "theorems": [
    "C16_correlation"
   ],
   "note": "M>=2L-1"
  },
  {
   "property": "C17",
   "status": "proved",
   "theorems": [
    "C17_hermitian_1d",
    "C17_hermitian_2d",
    "C17_hermitian_3d",
    "C17_idempotent_2d",
    "C17_idempotent_3d"
   ],
   "note": "HermitianSymmetrize, HermitianSymmetrizeX (strided and compact) and HermitianSymmetrizeXY: Hermitian on the symmetric line/plane, given modes kept, Nyquist row/planes zeroed, every other word untouched, idempotent, under every schedule; origin must have room for the negative modes (Hx<=x0+1) and rows must not overlap (Hy<=Sx; Hz<=Sy, (y0+Hy)*Sy<=Sx)"
  },
  {
   "property": "C18",
   "status": "proved",
   "theorems": [
    "C18_convolution2_linear",
    "C18_convolution3_linear",
    "C18_strides3"
   ],
   "note": "2D and 3D, every parameter set per dimension with Sy=1 (2D), Sx>1 or D=1, every team size, row assignment and interleaving; forward/backward loops of the layer are sequential in the model (in the code their iterations are the threads of the fftPad kernels)"
  },
  {
   "property": "C19",
   "status": "proved",
   "theorems": [
    "C19_forward_is_centered_dft",
    "C19_centered_is_shifted",
    "C19_residue_loop_terminates",
    "C19_index_bijection",
    "C19_forward_overwrite",
    "C19_forward_in_bounds",
    "C19_pass_fits",
    "C19_forward_deterministic"
   ],
   "note": "fftPadCentered: explicit (fast and slow), p=2, inner, Many and overwrite forward kernels, and index()"
  },
  {
   "property": "C20",
   "status": "proved",
   "theorems": [
    "C20_blocks_partition",
    "C20_plans_exist",
    "C20_complex_batch",
    "C20_real_batch",
    "C20_inplace_transposed_refuted"
   ],
   "note": "complex and real batches, every thread count, timing and schedule; in place with different input and output layouts (not a documented use) races: exhibited as _refuted"
  },
  {
   "property": "C21",
   "status": "proved",
   "theorems": [
    "C21_shift_2d",
    "C21_shift_3d",
    "C21_shift_involution_2d",
    "C21_shift_involution_3d",
    "C21_odd_sizes_exit",
    "C21_fft0_centres_2d",
    "C21_fft0_centres_3d",
    "C21_fft0_reads_centred_2d",
    "C21_fft0_reads_centred_3d"
   ],
   "note": "2D and 3D, complex and half-complex; odd sizes exit"
  },
  {
   "property": "C22",
   "status": "partial",
   "theorems": [
    "C22_round_trip_1d",
    "C22_round_trip_2d",
    "C22_round_trip_3d",
    "C22_real_round_trip_1d",
    "C22_real_round_trip_2d",
    "C22_real_round_trip_3d",
    "C22_shifted_round_trip_2d",
    "C22_shifted_round_trip_3d",
    "C22_strided_normalize",
    "C22_mfft1d_normalize_refuted"
   ],
   "note": "complex and real 1D/2D/3D proved; multiple 1D transforms (Mfft1d::fftNormalized) refuted: Normalize writes outside the output"
  },
  {
   "property": "C23",
   "status": "proved",
   "theorems": [
    "C23_deNyquist_2d",
    "C23_deNyquist_3d"
   ],
   "note": "2D and 3D"
  },
  {
   "property": "C24",
   "status": "proved",
   "theorems": [
    "C24_running_statistics"
   ],
   "note": "all sequences of reports, exact arithmetic"
  },
  {
   "property": "C25",
   "status": "proved",
   "theorems": [
    "C25_running_median"
   ],
   "note": "all sequences of insertions"
  },
  {
   "property": "C26",
   "status": "proved",
   "theorems": [
    "C26_field",
    "C26_mixed",
    "C26_comparison",
    "C26_compound_assignment",
    "C26_compound_assignment_real",
    "C26_sqrt",
    "C26_conj_abs",
    "C26_exp"
   ],
   "note": "real-arithmetic model of Complex.h"
  },
  {
   "property": "C27",
   "status": "partial",
   "theorems": [
    "C27_negative_real_refuted",
    "C27_arg_partial",
    "C27_pow_partial",
    "C27_pow_add"
   ],
   "note": "refuted on the negative real axis; principal value and powers proved elsewhere"
  },
  {
   "property": "C28",
   "status": "proved",
   "theorems": [
    "C28_vector_helpers",
    "C28_sse2_branch"
   ],
   "note": ""
  },
  {
   "property": "C29",
   "status": "proved",
   "theorems": [
    "C29_position_bijective",
    "C29_array1",
    "C29_array2",
    "C29_array3",
    "C29_array4",
    "C29_array5",
    "C29_Array1",
    "C29_Array2",
    "C29_Array3",
    "C29_Array4",
    "C29_Array5"
   ],
   "note": "array1..5 and Array1..5, both subscripting forms, both builds; exact integers"
  },
  {
   "property": "C30",
   "status": "partial",
   "theorems": [
    "C30_no_double_free",
    "C30_freed_exactly_once",
    "C30_owner_access",
    "C30_assignment_copies",
    "C30_self_view_refuted",
    "C30_hold_leaks_refuted",
    "C30_swap_leaks_refuted",
    "C30_allocate_leaks_refuted",
    "C30_wrong_free_refuted",
    "C30_empty_aligned_refuted",
    "C30_grow_aligned_refuted"
   ],
   "note": "no double free for all histories; exactly once for disciplined histories; leaks (Hold, swaparray, Allocate with NDEBUG), wrong deallocation function, use after free on self-view assignment and destructor overruns exhibited as _refuted"
  },
  {
   "property": "C31",
   "status": "partial",
   "theorems": [
    "C31_identity",
    "C31_add_scalar",
    "C31_nothing_else",
    "C31_tall_identity_refuted",
    "C31_tall_add_refuted",
    "C31_array3_add_scalar",
    "C31_array3_refuted"
   ],
   "note": "proved for nx<=ny+1 (and cubes in 3D); refuted for taller arrays"
  },
  {
   "property": "C32",
   "status": "proved",
   "theorems": [
    "C32_posix_memalign",
    "C32_bad_alignment_rejected",
    "C32_zero_alignment_refuted",
    "C32_buffers",
    "C32_align",
    "C32_delete",
    "C32_delete_Array_h",
    "C32_delete_empty_refuted"
   ],
   "note": "the bundled posix_memalign0/free0 and the buffer arithmetic; alignment 0 and empty deleteAlign of Array.h exhibited as _refuted; the system posix_memalign is external"
  },
  {
   "property": "C33",
   "status": "proved",
   "theorems": [
    "C33_localdimension",
    "C33_overflow_refuted",
    "C33_split",
    "C33_group1",
    "C33_group2",
    "C33_group2_storage"
   ],
   "note": "int arithmetic with overflow modelled; overflow near 2^31 exhibited as _refuted"
  },
  {
   "property": "C34",
   "status": "proved",
   "theorems": [
    "C34_schedule"
   ],
   "note": ""
  },
  {
   "property": "C35",
   "status": "proved",
   "theorems": [
    "C35_localize0",
    "C35_localize1",
    "C35_roundtrip",
    "C35_history",
    "C35_compact_refuted"
   ],
   "note": "every matrix, process count, blocking (a,alltoall), interleaving and send buffering; in place and out of place; any history of calls; out-of-place localize0 in compact mode exits: exhibited as _refuted"
  },
  {
   "property": "C36",
   "status": "proved",
   "theorems": [
    "C36_gatherx",
    "C36_gathery",
    "C36_gatheryz",
    "C36_gatherxy",
    "C36_group"
   ],
   "note": "every size, process count and process grid; every interleaving and send buffering; sizes whose byte counts overflow int are not modelled"
  },
  {
   "property": "C37",
   "status": "proved",
   "theorems": [
    "C37_key_order",
    "C37_lookup_last_stored"
   ],
   "note": ""
  },
  {
   "property": "C38",
   "status": "proved",
   "theorems": [
    "C38_wisdom_never_torn",
    "C38_write_error_refuted"
   ],
   "note": "crash of the process at any system call; power loss/fsync not modelled; failed write exhibited as _refuted"
  },
  {
   "property": "C39",
   "status": "partial",
   "theorems": [
    "C39_indices_partial",
    "C39_indices_refuted"
   ],
   "note": "refuted when the first pass has several blocks; proved otherwise"
  },
  {
   "property": "C40",
   "status": "proved",
   "theorems": [
    "C40_identity"
   ],
   "note": ""
  },
  {
   "property": "C41",
   "status": "proved",
   "theorems": [
    "C41_offset"
   ],
   "note": "A>=B"
  },
  {
   "property": "C42",
   "status": "partial",
   "theorems": [
    "C42_wisdom_accumulates",
    "C42_directory_refuted",
    "C42_concurrent_save_refuted"
   ],
   "note": "proved for a plain file name with no concurrent saver between reload and rename; directory names and concurrent savers refuted"
  },
  {
   "property": "C43",
   "status": "proved",
   "theorems": [
    "C43_elementwise",
    "C43_min_max"
   ],
   "note": ""
  },
  {
   "property": "C44",
   "status": "partial",
   "theorems": [
    "C44_Array3_accepts",
    "C44_Array4_accepts",
    "C44_Array5_accepts",
    "C44_Array4_array4_refuted",
    "C44_swap",
    "C44_swap_array3",
    "C44_swap_array3_refuted"
   ],
   "note": "Array4=array4 with unequal extents and swaparray of array3 with different shapes refuted"
  },
  {
   "property": "C45",
   "status": "partial",
   "theorems": [
    "C45_convolution2_partial",
    "C45_history2_partial",
    "C45_frequencies2_partial",
    "C45_convolution3_partial",
    "C45_history3_partial",
    "C45_frequencies3_partial",
    "C45_single_column_refuted"
   ],
   "note": "agree2/agree3: B<=A; A=B+1 when the outer transform runs in two residue loops; A-B divides B when the innermost does (C10 refutes the claim without it); D=1 if Sx=1 (needed: C45_single_column_refuted). Frequencies: not in overwrite mode and not for D0>1 in the innermost transform"
  },
  {
   "property": "C46",
   "status": "proved",
   "theorems": [
    "C46_backward_pass",
    "C46_passes_add_up",
    "C46_roundtrip",
    "C46_backward_overwrite",
    "C46_roundtrip_overwrite",
    "C46_backward_in_bounds",
    "C46_backward_deterministic"
   ],
   "note": "fftPadCentered: explicit (fast and slow), p=2, inner, Many and overwrite backward kernels; backward destroys F"
  },
  {
   "property": "C47",
   "status": "proved",
   "theorems": [
    "C47_centered_convolution",
    "C47_centered_cyclic_convolution",
    "C47_centered_correlation",
    "C47_centered_convolution2",
    "C47_centered_convolution3"
   ],
   "note": "1D linear, cyclic and correlation; 2D and 3D linear with any mix of fftPad and fftPadCentered, same side conditions as C18 (agree2/agree3)"
  },
  {
   "property": "C48",
   "status": "proved",
   "theorems": [
    "C48_forward_is_hermitian_dft",
    "C48_residue_loop",
    "C48_index_bijection",
    "C48_forward_in_bounds"
   ],
   "note": "fftPadHermitian: explicit, p=2, Many and inner forward kernels; FFTW c2r as external contract; user must supply real f_0"
  },
  {
   "property": "C49",
   "status": "proved",
   "theorems": [
    "C49_backward_pass",
    "C49_passes_add_up",
    "C49_inverse",
    "C49_roundtrip",
    "C49_backward_in_bounds_and_deterministic"
   ],
   "note": "All backward kernels of fftPadHermitian, hbackward's share of the inverse per pass, sum over passes, round trip and schedule safety."
  },
  {
   "property": "C50",
   "status": "partial",
   "theorems": [
    "C50_hermitian_convolution",
    "C50_hermitian_cyclic_convolution",
    "C50_no_undefined_behaviour",
    "C50_fresh_buffers_refuted"
   ],
   "note": "The convolution, frame and safety are proved for q=1, for even n, and for odd n with initialised transform buffers. For odd n and freshly allocated buffers the last clause is refuted (C50_fresh_buffers_refuted): operate multiplies a block that forward did not write."
  },
  {
   "property": "C51",
   "status": "proved",
   "theorems": [
    "C51_hermitian_convolution2",
    "C51_hermitian_cyclic_convolution2",
    "C51_hermitian_convolution2_history",
    "C51_hermitian_convolution3",
    "C51_hermitian_cyclic_convolution3",
    "C51_hermitian_convolution3_history",
    "C51_strides3"
   ],
   "note": "Two and three dimensions, cyclic and linear convolution, frame, call history. The last dimension must be explicit (q=1) or have even n (hypothesis hag_n), as the quantifier says; for odd n the code reads uninitialised words (C50)."
  },
  {
   "property": "C52",
   "status": "partial",
   "theorems": [
    "C52_real_forward_partial",
    "C52_real_backward_partial",
    "C52_pad",
    "C52_residue_loop",
    "C52_every_frequency_once",
    "C52_passes_add_up",
    "C52_roundtrip_partial",
    "C52_forward_in_bounds_partial",
    "C52_backward_in_bounds_partial",
    "C52_index_middle_passes",
    "C52_index_refuted"
   ],
   "note": "Proved for C=S=1 and p<=2 (kernels forwardExplicit, forward1, forward2 and their inverses, padSingle, all D, in and out of place). Missing: the Many (S>1) and Inner (p>2) kernels. The clause on index is refuted (C52_index_refuted) for pass 0 and holds for the middle passes with D=1 (C52_index_middle_passes)."
  },
  {
   "property": "C53",
   "status": "partial",
   "theorems": [
    "C53_real_convolution_partial",
    "C53_any_history_partial",
    "C53_cyclic_convolution_partial",
    "C53_no_undefined_behaviour_partial"
   ],
   "note": "Proved for C=S=1, p<=2, A=2, B=1 with multBinary: explicit, two-pass and general schedules, in and out of place. Missing: the Inner kernels (p>2) of fftPadReal."
  },
  {
   "property": "C54",
   "status": "partial",
   "theorems": [
    "C54_forward2",
    "C54_backward2",
    "C54_roundtrip2",
    "C54_history2",
    "C54_forward3",
    "C54_backward3",
    "C54_roundtrip3",
    "C54_history3",
    "C54_default_output_refuted",
    "C54_default_output3_refuted"
   ],
   "note": "Proved for rcfft2dMPI and for rcfft3dMPI with slabs, with explicit output argument: both transforms, the normalised round trip, every history, all schedules, fft2dMPI and fft3dMPI in slabs. The last clause is refuted (C54_default_output_refuted, C54_default_output3_refuted): with the default output NULL, ForwardWait/BackwardWait are given the null pointer. Missing: pencil decomposition of fft3dMPI."
  },
  {
   "property": "C55",
   "status": "partial",
   "theorems": [
    "C55_convolution1",
    "C55_convolution1_history",
    "C55_convolution2",
    "C55_convolution2_history",
    "C55_convolution3",
    "C55_convolution3_history",
    "C55_wrong_shape",
    "C55_hermitian1",
    "C55_hermitian1_history",
    "C55_odd_residues_refuted",
    "C55_hermitian2",
    "C55_hermitian2_history",
    "C55_hermitian3",
    "C55_hermitian3_history",
    "C55_default_padding",
    "C55_default_padding_refuted",
    "C55_explicit_padding1",
    "C55_explicit_padding2",
    "C55_explicit_padding3",
    "C55_explicit_padding_hermitian1",
    "C55_explicit_padding_hermitian2",
    "C55_explicit_padding_hermitian3"
   ],
   "note": "Proved: all six classes, single calls and histories, symmetrization, wrong shapes, explicit padded sizes of the C++ classes (C55_explicit_padding*). Missing: second and third dimensions all of length 1 with D>1 in the first; last dimension of HConvolution with an odd number n>1 of residues (C55_odd_residues_refuted: indeterminate values are read); the default-padding clause is refuted for Hermitian classes with A>=3 (C55_default_padding_refuted)."
  },
  {
   "property": "C56",
   "status": "partial",
   "theorems": [
    "C56_forward3",
    "C56_backward3",
    "C56_roundtrip3",
    "C56_history3",
    "C56_default_output3_refuted",
    "C56_backward0_default_output3_refuted",
    "C56_forward2",
    "C56_backward2",
    "C56_roundtrip2",
    "C56_history2",
    "C56_default_output_refuted",
    "C56_backward0_default_output_refuted",
    "C56_deNyquist_idle_refuted"
   ],
   "note": "Proved for rcfft2dMPI and for rcfft3dMPI with slabs, with explicit output argument: both transforms, shifted and unshifted, the normalised round trip, every history, all schedules, any junk. Refuted: the default output NULL (C56_default_output_refuted, C56_backward0_default_output_refuted, and the same for rcfft3dMPI), and deNyquist on a process whose empty share of the columns starts at the end Y/2+1, e.g. Y=6 on 3 processes (C56_deNyquist_idle_refuted: it writes before its array); histories of rcfft2dMPI exclude these. Missing: rcfft3dMPI with the pencil decomposition (Tyz not NULL)."
  },
  {
   "property": "C57",
   "status": "partial",
   "theorems": [
    "C57_padded_partial",
    "C57_linear_partial",
    "C57_history_partial",
    "C57_index_refuted"
   ],
   "note": "Proved for Convolution2MPI on fftPad kernels without overwrite and loop2: any number of processes with any distribution, any blocking, numbers of inputs and outputs, number of residue blocks, history of calls on the object, all schedules; result equal to the serial padded convolution, the linear one for M>=2Lx-1 (C57_padded_partial, C57_linear_partial, C57_history_partial). Missing: the modes overwrite and loop2 with overlapped transposes, Convolution3MPI; local kernels are atomic. The case Ly=1 on several processes is excluded (MPIgroup never makes such a group). Refuted: a multiplier that looks at its index gets the local row number without the offset of the process (C57_index_refuted)."
  },
  {
   "property": "C58",
   "status": "partial",
   "theorems": [
    "C58_symmetrize3_partial",
    "C58_symmetrize2",
    "C58_reflect",
    "C58_symmetric",
    "C58_pencil_refuted"
   ],
   "note": "Proved for the slab decomposition in three dimensions and for HermitianSymmetrizeX: any sizes, parities, distribution, schedules; deadlock free with blocking point-to-point sends and receives (C58_symmetrize3_partial, C58_symmetrize2); the first call's table of mirror processes (C58_reflect; the Allgather of the starting columns is taken as known to all processes); the result has Hermitian symmetry (C58_symmetric). One process in all calls the serial routine of C55. Refuted for pencils (C58_pencil_refuted): processes with d.z0 != 0 return before removing the Nyquist modes that the serial routine removes on all planes. Missing: the rest of the pencil case (sub-communicators)."
  },
  {
   "property": "C59",
   "status": "partial",
   "theorems": [
    "C59_direct",
    "C59_centered",
    "C59_auto",
    "C59_hermitian1",
    "C59_direct2",
    "C59_direct3",
    "C59_hermitian2",
    "C59_hermitian2_given",
    "C59_hermitian3",
    "C59_hermitian3_given",
    "C59_agrees",
    "C59_agrees2",
    "C59_agrees3",
    "C59_agrees_hermitian1",
    "C59_agrees_hermitian2",
    "C59_agrees_hermitian3",
    "C59_stride_refuted"
   ],
   "note": "Proved for every size, parity, stride and data in exact arithmetic: all direct convolutions (C59_direct .. C59_hermitian3_given), and their agreement with the convolution objects of the wrappers in one, two and three dimensions, complex and Hermitian (C59_agrees*). Refuted part: directconvh2 with padded rows and symmetrize=true symmetrizes as if the rows were dense (C59_stride_refuted); the tests pass symmetrize=false there."
  }
 ]
}