{
 "C01": [
  "partial",
  "Round trip proved for every Irrep and every Irreps with at least one entry; str(Irreps()) = '' round trip and 'Irreps()' text are treated in C01_empty_refuted."
 ],
 "C08": [
  "partial",
  "slice_by_mul and slice_by_chunk are proved to be Python slicing of the flattened list; slice_by_dim is proved on aligned bounds, and the rejection half is refuted with a witness (the code only checks the width)."
 ],
 "C14": [
  "partial",
  "Proved for every array reachable by any sequence of the modelled calls (C14_every_reachable_array). The unrestricted claim is false: adding with broadcasting against a None chunk and x**0-style powers of a None chunk break it (C14_add_broadcast_refuted, C14_pow_refuted)."
 ],
 "C15": [
  "partial",
  "Proved for every program of the modelled calls that respects the stated side conditions; three calls whose outcome does depend on the flags are exhibited (C15_*_refuted)."
 ],
 "C18": [
  "partial",
  "Proved on the documented domain; filter with a callable that depends on the multiplicity, slice_by_mul cutting through a None chunk and slice_by_chunk[::-1] are refuted with witnesses."
 ],
 "C19": [
  "partial",
  "Proved for the default axis; for other axes the two functions are not inverse (refuted with witnesses)."
 ],
 "C22": [
  "partial",
  "Proved for +, -, negation, scaling, products and quotients (copy by copy) of arrays without zero-multiplicity entries; scaling an array with empty irreps is refuted."
 ],
 "C32": [
  "partial",
  "Proved when no entry has multiplicity 0; with a trailing zero multiplicity the alignment fails (refuted)."
 ],
 "C56": [
  "partial",
  "The guard is proved; two index forms reach the irreps axis (refuted with witnesses)."
 ],
 "C27": [
  "proved",
  "Equivariance, instruction/bias shape, completeness (C27_complete, C27_complete_affine) and uniqueness of the weights (C27_determined) proved; that user instructions are not checked for equal irreps is shown by C27_user_instructions_refuted."
 ],
 "C28": [
  "proved",
  "Sum of squares and the variance itself (for any linear expectation) are proved; the excluded case is refuted by C28_empty_input_refuted."
 ],
 "C35": [
  "partial",
  "Composition, inversion, identity and rotation angles proved; rotation_angle_from_angles on a batch is refuted (R2.T reverses the batch axis too)."
 ],
 "C36": [
  "partial",
  "Proved for every rotation (angles) and for every rotation that is not a half turn (axis-angle, quaternion, log coordinates); at every half turn the claim is refuted (C36_half_turn_refuted)."
 ],
 "C34": [
  "proved",
  "The conversions that read the axis off a matrix need trace <> -1 (no half turn); at half turns see C36_half_turn_refuted. expm is the exponential series."
 ],
 "C41": [
  "partial",
  "Value, output parity, rejections, normalisation and O(3)-equivariance proved for functions whose measured parity is their parity (proved for exact even functions, for exact odd functions above the tolerance, and for soft_odd) and for zero chunks activated by functions vanishing at 0. The unrestricted claim is false: act(1) is used for known-zero chunks and parity is sampled on [0,10] only (C41_*_refuted)."
 ],
 "C42": [
  "partial",
  "Value, irreps, rejections and O(3)-equivariance proved for inputs whose scalar chunks are not None and whose multiplicities are positive; a None scalar chunk that is cut makes gate raise TypeError (C42_zero_scalars_refuted)."
 ],
 "C43": [
  "partial",
  "Edge set, order, padding and the exclusion of self loops proved; coincident points are dropped with loop=False and batch+size pads with an index of another batch (refuted with witnesses)."
 ],
 "C48": [
  "partial",
  "sus, soft_envelope, poly_envelope (existence and uniqueness of the solution included), u, cosine / smooth_finite / fourier windows and bessel proved; the gaussian basis is never 0, so cutoff does not cut it off (C48_gaussian_cutoff_refuted)."
 ],
 "C52": [
  "proved",
  "All clauses proved for every degree and vector, in exact real arithmetic; x = 0 with normalize=True follows the code's guarded division. The symbolic coefficients produced through sympy are modelled as exact reals."
 ],
 "C44": [
  "partial",
  "Everything but one clause proved: apply with an even function on a signal of odd values keeps p_val = -1 although the values become even (C44_apply_even_refuted; apply computes new_p_val and does not use it)."
 ],
 "C45": [
  "partial",
  "Transforms, acceptance, round trip, normalizations, integrate, resample, to_s2point and s2_dirac proved under the stated conditions; refuted: fft on a grid coarser than 2 lmax + 1, 'component' ignores lmax_in, to_s2point permutes the values when both leading shapes are non-trivial, s2_dirac with p_val = -1 never succeeds."
 ],
 "C46": [
  "proved",
  "The result depends on whether a zero chunk is stored as None (refuted clause C46_*_refuted)."
 ],
 "C47": [
  "proved",
  "Each copy is scaled by one factor; the docstring's independent draws are refuted (C47_*_refuted)."
 ],
 "C55": [
  "proved",
  "Value, regrouping, equivariance and rejections proved for every differentiable function; that a result with a None chunk is refused is shown by C55_zero_chunk_refuted."
 ],
 "C54": [
  "proved",
  "limit_denominator, round, gram_schmidt (real, round_fn = identity) and basis_intersection (eigh as a parameter with its specification, a spectral gap at epsilon, completeness when gram_schmidt drops nothing). Proved defects: limit_denominator at d == max_denominator returns 0/1; the documented form sqrt(p)/q is not the form returned; gram_schmidt overwrites its argument. as_approx_integer_ratio (float bits), int64 overflow and the complex case are not modelled."
 ],
 "C49": [
  "partial",
  "Proved for all instruction lists whose multiplicities suit their modes. The full claim is false in the corners shown by the C49_*_refuted theorems: instructions with an empty entry (unfused evaluation misassigns or fails), right with the pair modes or a None chunk, fusion not checking multiplicities, and path normalisation counting empty entries."
 ],
 "C58": [
  "partial",
  "Proved for every list of irreps, and for every formula / symmetric / antisymmetric power with at least two indices of positive dimension (for the powers: at least one), with the optimised symmetric implementation on or off; irreps_out is determined by the request and does not depend on the flag. Missing: rounding to square roots of rationals is taken as the identity on the exact values. Refuted corners: a single index ignores its formula, an index of dimension 0 fails, and the optimised implementation raises ValueError exactly when keep_ir leaves nothing. np.linalg.eigh enters by its specification, which is shown to be satisfiable (spectral theorem)."
 ],
 "C59": [
  "partial",
  "Proved for all inputs: the call is the tensor product with the harmonics, regrouped, the copies of each irrep in the order of the unsorted input; the documented equation holds exactly as written when the irreps of the input are sorted and merged and the vectors are not zero (C59_documented), and after regrouping the input otherwise (C59_regrouped_first). Refuted corners: an unsorted input (\"1o+0e\") gives the copies in another order, a zero vector is given the direction (0,0,1), and an input without irreps raises NameError. tensor_product's default component normalisation is meant; the allclose verifications are exact equalities."
 ],
 "C60": [
  "proved",
  "Proved for the haiku/flax module (C60_shape, C60_irreps_*, C60_equivariant, C60_linear, C60_rows, C60_names_distinct, C60_complete) and the equinox module (C60_equinox_*). Refuted corners: irreps_in together with channel_out rejects every input with other than one channel; irreps_in rejects an input with exactly those irreps when a non-empty chunk is flagged as zero (equinox: AssertionError on such an input); in equinox the input's channels are not mixed into channel_out but kept as a separate axis. Not modelled: dtypes, random initialisation, weights given as an array without axes, integer weights wrapped in an IrrepsArray."
 ],
 "C61": [
  "partial",
  "Proved on top of C58 for all orders, irreps, filters, parameters and inputs (C61_value, C61_equivariant, C61_complete, C61_channelwise, C61_homogeneous, C61_names_distinct, C61_all_kept, C61_returns_iff, C61_rejects, C61_no_orders). Missing, as in C58: the rounding of the basis to square roots of rationals is taken as the identity. Refuted corner (C61_unrequested_order_refuted): the bases of all orders up to the largest one are computed, also those not requested, so with even irreps kept and odd irreps in the input every call with a largest order of 3 or more raises ValueError, although order 4 alone is fine (C61_order_4_fine)."
 ],
 "C64": [
  "proved",
  "All of the stated property. 'nearest' does not commute with mirrors (halves go to the even voxel): C64_nearest_mirror_refuted."
 ],
 "C65": [
  "proved",
  "All of the stated property, for calls whose query-key product contains a scalar (hypothesis scored of worked: otherwise linear_logit has no output and the code attends with zero heads); the parameters have the shapes the two Linear layers ask for (tf_fits). The exact formula for scalar features, vector attributes and one head is C65_value; C65_nonvacuous is a concrete graph."
 ],
 "C66": [
  "proved",
  "All of the stated property; filters given as strings are not modelled. C66_nonvacuous is a concrete call whose output is computed."
 ],
 "C67": [
  "proved",
  "All of the stated property, for parameters of the shapes the code asks for (supplied), 0 < static steps <= dynamic steps, relative_starts below 1 (ready). num_radial_basis and relative_starts are given per degree (a missing key is not modelled). C67_nonvacuous is a concrete layer, grid, quarter turn and mirror."
 ],
 "C68": [
  "proved",
  "All of the stated property; irreps_out is an Irreps, the multiplicities of the input are positive (with only empty entries the code divides 0 by 0), and the direction is not zero in C68_equivariant. C68_nonvacuous is a concrete case."
 ]
}