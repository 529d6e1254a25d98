#!/usr/bin/env python3
"""Writes /verif/properties.jsonl.  One entry per semantic property."""
import json, os
P = []
def p(id, title, statement, quantifier, why, *anchors):
    P.append(dict(id=id, title=title, statement=statement, quantifier=quantifier,
                  why_tests_cant=why, anchors=list(anchors)))

p("C01", "String round trip of Irreps",
  "For every Irreps value x with at least one entry, Irreps(str(x)) == x; for every Irrep ir, Irrep(str(ir)) == ir, and distinct values never share a string.",
  "every Irreps with any number of entries, any multiplicity >= 0, any l >= 0 and parity +-1",
  "infinitely many strings and multiplicities; a round trip must hold for all of them",
  "e3nn_jax/_src/irreps.py:Irrep.__init__", "e3nn_jax/_src/irreps.py:Irreps.__init__", "e3nn_jax/_src/irreps.py:Irreps.__repr__")
p("C02", "Irrep order is a strict total order and Irrep.iterator follows it",
  "Irrep comparison (<) is irreflexive, transitive, total and compatible with ==; Irrep.iterator(lmax) yields every irrep with l <= lmax exactly once, in strictly increasing order.",
  "all pairs/triples of irreps, all lmax", "unbounded l; transitivity and totality are universally quantified",
  "e3nn_jax/_src/irreps.py:Irrep.__lt__", "e3nn_jax/_src/irreps.py:Irrep.iterator")
p("C03", "Irrep product obeys the Clebsch-Gordan selection rules",
  "ir in ir1*ir2 iff the parity is the product of parities and |l1-l2| <= l <= l1+l2; each appears once; the dimensions of the terms sum to dim(ir1)*dim(ir2); the product is commutative as a set, 0e is the unit, and triple products associate as multisets.",
  "all irreps", "unbounded l1, l2, l3",
  "e3nn_jax/_src/irreps.py:Irrep.__mul__")
p("C04", "Irreps.slices partitions the feature axis",
  "The slices of an Irreps are consecutive, start at 0, end at irreps.dim, have length mul*dim(ir) each, so each feature index belongs to exactly one slice.",
  "every Irreps (including zero multiplicities) and every feature index", "unbounded list lengths and multiplicities",
  "e3nn_jax/_src/irreps.py:Irreps.slices", "e3nn_jax/_src/irreps.py:Irreps.dim")
p("C05", "simplify/unify keep the represented space and reach a normal form",
  "unify, remove_zero_multiplicities and simplify preserve dim, num_irreps, count(ir) for each ir and the flattened ordered sequence of irreps; simplify is idempotent, its result has no zero multiplicity and no two adjacent equal irreps; two Irreps have the same simplify() iff their flattened sequences of irreps agree.",
  "every Irreps", "unbounded lists; characterisation is an iff over all pairs",
  "e3nn_jax/_src/irreps.py:Irreps.unify", "e3nn_jax/_src/irreps.py:Irreps.simplify", "e3nn_jax/_src/irreps.py:Irreps.remove_zero_multiplicities")
p("C06", "sort is a stable sort with correct permutations; regroup is canonical",
  "sort() returns the entries ordered by irrep, ties in original order; p and inv are permutations of range(len), inverse of each other, with sorted[p[i]] = original[i] and sorted[i] = original[inv[i]]; regroup depends only on, and determines, the count of each irrep.",
  "every Irreps", "unbounded lists; stability and inverse laws for every permutation",
  "e3nn_jax/_src/irreps.py:Irreps.sort", "e3nn_jax/_src/irreps.py:Irreps.regroup", "e3nn_jax/perm.py:inverse")
p("C07", "Irreps.filter keeps exactly the requested entries in order",
  "filter(keep=...), filter(drop=...), lmax=... keep exactly the entries whose irrep satisfies the predicate, in the original order; keep and drop with the same predicate are complementary.",
  "every Irreps, every predicate (list of irreps, callable) and every lmax", "unbounded inputs and arbitrary predicates",
  "e3nn_jax/_src/irreps.py:Irreps.filter")
p("C08", "Irreps slicing helpers select whole representations",
  "slice_by_mul[a:b] returns the irreps of the flattened list between a and b; slice_by_chunk[a:b] the entries; slice_by_dim[a:b] returns the irreps spanning features [a,b) and must reject bounds that cut a representation.",
  "every Irreps and every Python slice (negative and out-of-range bounds)", "all bounds; the rejecting branch must fire for every cutting bound",
  "e3nn_jax/_src/irreps.py:_MulIndexSliceHelper", "e3nn_jax/_src/irreps.py:_DimIndexSliceHelper", "e3nn_jax/_src/irreps.py:_ChunkIndexSliceHelper")
p("C09", "Counting is additive over Irreps arithmetic",
  "dim, num_irreps and count(ir) are additive for +, scale by n for *n / repeat(n); mul_gcd divides every multiplicity and x // mul_gcd times mul_gcd recovers x; lmax is the maximal l and errors exactly on empty input.",
  "every pair of Irreps, every integer n", "unbounded arithmetic identities",
  "e3nn_jax/_src/irreps.py:Irreps.__add__", "e3nn_jax/_src/irreps.py:Irreps.__mul__", "e3nn_jax/_src/irreps.py:Irreps.__floordiv__", "e3nn_jax/_src/irreps.py:Irreps.mul_gcd", "e3nn_jax/_src/irreps.py:Irreps.lmax", "e3nn_jax/_src/irreps.py:Irreps.count")
p("C10", "Permutation group laws",
  "On permutations of n: compose is associative, identity is neutral, inverse is a two-sided inverse and all results are permutations.",
  "all n, all permutations", "n! inputs for each n",
  "e3nn_jax/perm.py:compose", "e3nn_jax/perm.py:inverse", "e3nn_jax/perm.py:identity")
p("C11", "Permutation ranking is a bijection",
  "from_int(i,n) is a permutation for 0<=i<n!, to_int(from_int(i,n)) = i, from_int(to_int(p),n) = p; group(n) is the set of all n! permutations.",
  "all n and all i < n!", "n! inputs for each n",
  "e3nn_jax/perm.py:from_int", "e3nn_jax/perm.py:to_int", "e3nn_jax/perm.py:group")
p("C12", "germinate returns the generated subgroup",
  "germinate(S) terminates and returns exactly the least set of permutations containing S closed under inverse and composition; is_group accepts exactly the sets closed under them.",
  "all finite sets of permutations", "closure is a fixpoint over an unbounded number of iterations",
  "e3nn_jax/perm.py:germinate", "e3nn_jax/perm.py:is_group")
p("C13", "Permutation sign is a homomorphism computed from cycles",
  "sign(p) equals the parity of the number of inversions and sign(compose(p,q)) = sign(p)*sign(q); to_cycles lists the non-trivial cycles of p.",
  "all permutations", "n! inputs for each n",
  "e3nn_jax/perm.py:sign", "e3nn_jax/perm.py:to_cycles")
p("C14", "array and chunks of an IrrepsArray are two views of the same data",
  "x.chunks[i] reshaped equals the slice irreps.slices()[i] of x.array, or is None only if that slice is entirely zero; from_chunks followed by .chunks/.array round trips; every public constructor and operation preserves this.",
  "every IrrepsArray, every leading shape, every sequence of operations", "histories of operations are unbounded; a stale cache only shows on some sequence",
  "e3nn_jax/_src/irreps_array.py:IrrepsArray.chunks", "e3nn_jax/_src/basic.py:from_chunks")
p("C15", "zero flags are only an optimisation",
  "Replacing None chunks by explicit zeros (or dropping zero_flags, as jit/vmap/pytree flattening does) never changes the array value of the result of an operation.",
  "every operation, every choice of zero flags valid for the data", "2^k flag patterns and unbounded chunk counts",
  "e3nn_jax/_src/irreps_array.py:IrrepsArray.zero_flags", "e3nn_jax/_src/irreps_array.py:_src.tree_util")
p("C16", "rechunk/simplify/unify/remove_zero_chunks keep the array",
  "rechunk(irreps) to an Irreps with the same simplified form leaves .array unchanged, its chunks are coherent with the new irreps, and it is rejected otherwise; same for simplify/unify/remove_zero_chunks.",
  "every IrrepsArray and every equivalent Irreps", "unbounded chunk partitions on both sides (two-pointer merge loop)",
  "e3nn_jax/_src/irreps_array.py:IrrepsArray.rechunk", "e3nn_jax/_src/irreps_array.py:IrrepsArray.simplify")
p("C17", "sort/regroup of IrrepsArray is the block permutation of the features",
  "x.sort().array is x.array with the blocks permuted as irreps.sort() says: the block of sorted entry i is the block of the original entry inv[i]; nothing is lost or duplicated.",
  "every IrrepsArray", "unbounded number of chunks",
  "e3nn_jax/_src/irreps_array.py:IrrepsArray.sort", "e3nn_jax/_src/irreps_array.py:IrrepsArray.regroup")
p("C18", "IrrepsArray.filter, slices and string indexing return the matching features",
  "x.filter(...), x.slice_by_mul[...], x[..., 'irreps'] and x[..., slice] have array equal to the features of the kept entries, and irreps equal to the corresponding Irreps operation.",
  "every IrrepsArray, predicate and slice", "unbounded chunk counts, arbitrary predicates",
  "e3nn_jax/_src/irreps_array.py:IrrepsArray.filter", "e3nn_jax/_src/irreps_array.py:_MulIndexSliceHelper", "e3nn_jax/_src/irreps_array.py:IrrepsArray.__getitem__")
p("C19", "mul_to_axis and axis_to_mul are inverse",
  "x.mul_to_axis(n).axis_to_mul() equals x; y.axis_to_mul().mul_to_axis(n) equals y; both preserve each feature value and reject when a multiplicity is not divisible.",
  "every IrrepsArray with multiplicities divisible by the factor", "unbounded sizes",
  "e3nn_jax/_src/irreps_array.py:IrrepsArray.mul_to_axis", "e3nn_jax/_src/irreps_array.py:IrrepsArray.axis_to_mul")
p("C20", "concatenate, stack, sum and mean act blockwise",
  "concatenate on the irreps axis juxtaposes features and irreps; on other axes and stack keep irreps; sum/mean over leading axes reduce each feature; sum over the irreps axis sums multiplicities of each entry keeping equivariance.",
  "all lists of IrrepsArray, all axes", "unbounded lists and shapes",
  "e3nn_jax/_src/basic.py:concatenate", "e3nn_jax/_src/basic.py:stack", "e3nn_jax/_src/basic.py:_reduce")
p("C21", "extend_with_zeros embeds the features",
  "x.extend_with_zeros(irreps) has the requested irreps, contains the features of x at their place and zeros elsewhere, and keeps the order; it is rejected only when x's irreps are not a sublist.",
  "every pair of Irreps", "unbounded lists",
  "e3nn_jax/_src/irreps_array.py:IrrepsArray.extend_with_zeros")
p("C22", "Elementwise arithmetic is pointwise with numpy broadcasting",
  "x+y, x-y, -x, x*s, x/s, s*x act feature-wise on the arrays, are rejected for different irreps or non-scalar multipliers when scaling would break equivariance.",
  "all operands", "unbounded shapes",
  "e3nn_jax/_src/irreps_array.py:IrrepsArray.__add__", "e3nn_jax/_src/irreps_array.py:IrrepsArray.__mul__")
p("C23", "Group action on IrrepsArray is blockwise and commutes with structural operations",
  "The matrix of an Irreps is the block diagonal of the irrep matrices repeated mul times; hence sort, regroup, simplify, rechunk, filter, slice_by_mul, concatenate, sum, mul_to_axis, + and scaling commute with the action; identity acts trivially and actions compose.",
  "every group element and family of irrep matrices, every IrrepsArray", "group elements and features form a continuum",
  "e3nn_jax/_src/irreps.py:Irreps.D_from_angles", "e3nn_jax/_src/irreps_array.py:IrrepsArray.transform_by_angles")
p("C24", "Invariants: norm and dot are invariant scalars",
  "norm(x, per_irrep=True/False) and dot(x,y) do not change when the inputs are transformed by an orthogonal representation; dot is bilinear and symmetric; norm squared is the dot with itself.",
  "all x, y, all orthogonal actions", "continuum of inputs",
  "e3nn_jax/_src/basic.py:norm", "e3nn_jax/_src/basic.py:dot")
p("C25", "FunctionalLinear weights are a partition",
  "split_weights cuts the flat weight vector in consecutive blocks of the declared shapes, covering all num_weights entries exactly once; aggregate adds exactly the paths that land in each output chunk.",
  "all irreps_in/irreps_out/instructions", "unbounded numbers of paths",
  "e3nn_jax/_src/linear.py:FunctionalLinear.split_weights", "e3nn_jax/_src/linear.py:FunctionalLinear.num_weights", "e3nn_jax/_src/linear.py:FunctionalLinear.aggregate_paths")
p("C26", "FunctionalLinear.matrix represents the layer",
  "x.array @ matrix(w) equals the layer's output array for bias-free linear layers; the layer is linear in x and in w.",
  "all weights and inputs", "continuum of inputs, unbounded shapes",
  "e3nn_jax/_src/linear.py:FunctionalLinear.matrix", "e3nn_jax/_src/linear.py:FunctionalLinear.__call__")
p("C27", "Linear layers are equivariant and mix only equal irreps",
  "With the default instructions, or user instructions that join equal irreps, FunctionalLinear commutes with every representation; default paths exist exactly between equal irreps, once each; biases are accepted exactly on even scalars, other bias lists are rejected. With the default instructions every O(3)-equivariant linear map (with biases=True: every equivariant affine map) is the layer for exactly one setting of the weights. (User instructions joining different irreps of equal dimension are not rejected and break equivariance.)",
  "all group actions, weights, irreps", "continuum of inputs",
  "e3nn_jax/_src/linear.py:FunctionalLinear.__init__", "e3nn_jax/_src/linear.py:FunctionalLinear.__call__")
p("C28", "Linear path normalisation gives unit variance",
  "For independent unit variance inputs and weights, the sum over incoming paths of mul_in*alpha^2*weight_std^2 is 1 for every output that has a non-empty path, for path and element normalisation and every gradient normalisation exponent (at path normalisation 1, provided no connected input entry is empty), hence every output component has variance one.",
  "all irreps, all exponents in [0,1]", "real-valued identity over unbounded path lists",
  "e3nn_jax/_src/linear.py:FunctionalLinear.__init__")
p("C29", "tensor_product output irreps and dimension",
  "tensor_product(x,y) has one output entry of multiplicity mul1*mul2 for each pair of entries and each irrep of their product that passes filter_ir_out, in regrouped order; without filter, dim = dim1*dim2.",
  "all pairs of Irreps and filters", "unbounded",
  "e3nn_jax/_src/tensor_products.py:tensor_product")
p("C30", "Tensor products are bilinear and equivariant",
  "tensor_product, elementwise_tensor_product commute with the group action whenever the coupling tensors are intertwiners, are bilinear, and filtering outputs equals filtering afterwards. With the component normalisation tensor_product preserves inner products: <x(x)y, x'(x)y'> = <x,x'><y,y'>.",
  "all inputs and group elements", "continuum of inputs, unbounded irreps",
  "e3nn_jax/_src/tensor_products.py:tensor_product", "e3nn_jax/_src/tensor_products.py:elementwise_tensor_product")
p("C31", "tensor_square is the symmetric square",
  "tensor_square(x) has dimension dim*(dim+1)/2 (multiplicity pairs u<=v within an entry, entry pairs i<=j) and only keeps symmetric couplings.",
  "all Irreps", "unbounded",
  "e3nn_jax/_src/tensor_products.py:tensor_square")
p("C32", "elementwise_tensor_product aligns multiplicities",
  "Two Irreps with the same number of irreps are split into aligned lists with equal multiplicities without reordering, and the output lists ir1*ir2 per aligned entry; unequal counts are rejected.",
  "all pairs of Irreps with equal num_irreps", "unbounded",
  "e3nn_jax/_src/basic.py:_align_two_irreps", "e3nn_jax/_src/tensor_products.py:elementwise_tensor_product")
p("C33", "scatter_sum/mean/max specification",
  "scatter_sum output[k] is the sum of data[i] with dst[i]=k; mean divides by the count (0 when empty); max is the maximum with the initial value for empty; nel=lengths is equivalent to the expanded dst; map_back gathers output[dst[i]].",
  "all data, destinations, sizes", "unbounded sizes",
  "e3nn_jax/_src/scatter.py:scatter_sum", "e3nn_jax/_src/scatter.py:scatter_mean", "e3nn_jax/_src/scatter.py:scatter_max", "e3nn_jax/_src/scatter.py:_scatter_op", "e3nn_jax/_src/scatter.py:_distinct_but_small")
p("C34", "Rotation conversions produce rotations and are consistent",
  "angles_to_matrix, quaternion_to_matrix (unit), axis_angle_to_matrix (unit axis) are orthogonal with determinant one; conversions between angles, quaternions, axis-angle and log coordinates through any chain give the same matrix.",
  "all angles/axes/quaternions", "continuum; identities of trigonometric polynomials",
  "e3nn_jax/_src/rotation.py:angles_to_matrix", "e3nn_jax/_src/rotation.py:quaternion_to_matrix", "e3nn_jax/_src/rotation.py:axis_angle_to_matrix", "e3nn_jax/_src/rotation.py:angles_to_quaternion", "e3nn_jax/_src/rotation.py:log_coordinates_to_matrix")
p("C35", "Composition and inversion of rotations are homomorphic",
  "compose_quaternion/compose_angles/compose_axis_angle correspond to matrix product; inverse_angles / inverse_quaternion correspond to the transpose.",
  "all pairs of rotations", "continuum",
  "e3nn_jax/_src/rotation.py:compose_quaternion", "e3nn_jax/_src/rotation.py:compose_angles", "e3nn_jax/_src/rotation.py:inverse_angles", "e3nn_jax/_src/rotation.py:inverse_quaternion")
p("C36", "matrix_to_* are right inverses on every rotation matrix",
  "angles_to_matrix(matrix_to_angles(R)) = R for every rotation R; axis_angle/quaternion/log coordinates extracted from R rebuild R, also at rotation angle pi.",
  "all R in SO(3), including degenerate ones", "singular configurations have measure zero and are missed by random tests",
  "e3nn_jax/_src/rotation.py:matrix_to_angles", "e3nn_jax/_src/rotation.py:matrix_to_axis_angle", "e3nn_jax/_src/rotation.py:matrix_to_quaternion", "e3nn_jax/_src/rotation.py:matrix_to_log_coordinates")
p("C37", "xyz_to_angles/angles_to_xyz round trip",
  "angles_to_xyz(xyz_to_angles(v)) = v for unit v, and angles_to_matrix(alpha,beta,gamma) maps the y axis to angles_to_xyz(alpha,beta) for any gamma.",
  "all unit vectors and angles", "continuum with singular points",
  "e3nn_jax/_src/rotation.py:xyz_to_angles", "e3nn_jax/_src/rotation.py:angles_to_xyz")
p("C38", "Generators satisfy the so(3) algebra for every l",
  "The SU(2) generators of spin j satisfy [X0,X1]=X2 cyclically and are anti-Hermitian with Casimir -j(j+1); the change of basis to real is unitary, so the real generators satisfy the same relations, are real and antisymmetric.",
  "every l", "unbounded l; each l is a different matrix",
  "e3nn_jax/_src/su2.py:su2_generators", "e3nn_jax/_src/so3.py:change_basis_real_to_complex", "e3nn_jax/_src/so3.py:generators")
p("C39", "D is an orthogonal representation of O(3), whatever the parametrisation",
  "Irrep.D_from_matrix is multiplicative on O(3), sends the identity to the identity and the transpose to the transpose, is the vector representation on 1o, the pseudovector one on 1e, and inversion acts by the parity. D_from_angles (with absent or zero angles), D_from_log_coordinates, D_from_quaternion and D_from_axis_angle agree with D_from_matrix of the matrix they parametrise (times -1 to the k); D(-gamma,-beta,-alpha) is the inverse of D(alpha,beta,gamma). The tables J are exact orthogonal involutions exchanging the generators of x and y, so the table branch (l < 12) and the matrix-exponential branch compute the same thing. IrrepsArray.transform_by_* are the corresponding actions: they compose, and inverse=True inverts.",
  "every irrep, all of O(3), all angles, all batches of rows", "continuum and unbounded l",
  "e3nn_jax/_src/irreps.py:_wigner_D_from_angles", "e3nn_jax/_src/irreps.py:Irrep.D_from_matrix", "e3nn_jax/_src/J.py", "e3nn_jax/_src/irreps_array.py:IrrepsArray.transform_by_matrix")
p("C40", "Clebsch-Gordan coefficients: selection rules and intertwining",
  "su2_clebsch_gordan vanishes outside m1+m2=m3 and outside the triangle; the coefficients intertwine the generators of the product representation. The real coefficients clebsch_gordan are real before the real part is taken, orthonormal up to 1/(2 l3+1), intertwine every element of O(3), pick up (-1)^(l1+l2-l3) when the inputs are exchanged and are traceless into l3 > 0.",
  "every j1,j2,j3", "unbounded spins, closed formula with factorials",
  "e3nn_jax/_src/su2.py:su2_clebsch_gordan", "e3nn_jax/_src/su2.py:_su2_cg", "e3nn_jax/_src/so3.py:clebsch_gordan")
p("C41", "Scalar activations respect parity and equivariance",
  "scalar_activation applies functions only to scalars; the output parity of an odd scalar is that of the function; functions of no parity on odd scalars and any function on l>0 are rejected, so the result is equivariant under inversion and rotations.",
  "all irreps lists and function parities", "unbounded lists and continuum of inputs",
  "e3nn_jax/_src/activation.py:scalar_activation", "e3nn_jax/_src/activation.py:parity_function")
p("C42", "gate consumes exactly its gates and is equivariant",
  "gate splits scalars, gates and gated features; the number of gates equals the number of l>0 irreps; the output is [activated extra scalars, gates * features] and is equivariant; inputs with too few scalars are rejected.",
  "all irreps", "unbounded, continuum",
  "e3nn_jax/_src/gate.py:gate")
p("C43", "radius_graph lists exactly the close pairs",
  "edges are exactly the ordered pairs (i,j) in the same batch within r_max (i != j unless loop), sorted, padded with fill values to the requested size.",
  "all point clouds, batches, sizes", "unbounded; coincident points are measure zero",
  "e3nn_jax/_src/radius_graph.py:radius_graph")
p("C44", "Spherical signal parity bookkeeping",
  "s2_irreps lists l=0..lmax with parity p_val*p_arg^l; the parity check accepts exactly the irreps arising from a (p_val,p_arg) pair compatible with the arguments and returns that pair; +, -, scaling and products of sampled functions are the samples of the combined function, with the parity (product: p_val multiplied) under which the combined function transforms; incompatible grids or parities are rejected; apply(f) samples f o signal and has the parity of f.",
  "all lmax, parities, functions, grids", "unbounded lists, all functions",
  "e3nn_jax/_src/s2grid.py:s2_irreps", "e3nn_jax/_src/s2grid.py:_check_parities", "e3nn_jax/_src/s2grid.py:SphericalSignal.__mul__", "e3nn_jax/_src/s2grid.py:SphericalSignal.apply")
p("C45", "Grid transforms",
  "to_s2grid accepts exactly irreps of multiplicity one with consistent parities and samples the expansion sum_lm n_l c_lm Y_lm at the grid points, with or without fft; from_s2grid returns the normalised quadrature inner products with Y_lm; Y_lm are orthonormal for the quadrature once the grid is fine enough, so from_s2grid(to_s2grid(x)) = x (irreps reordered, missing degrees zero, extra degrees dropped) with the same normalization; the normalizations satisfy their documented sums; integrate is the l=0 coefficient; resample at a higher resolution preserves the signal; to_s2point evaluates the same expansion at an arbitrary direction; s2_dirac has integral one.",
  "all lmax, resolutions, irreps, coefficients", "unbounded lmax and resolution",
  "e3nn_jax/_src/s2grid.py:to_s2grid", "e3nn_jax/_src/s2grid.py:from_s2grid", "e3nn_jax/_src/s2grid.py:to_s2point", "e3nn_jax/_src/s2grid.py:s2_dirac", "e3nn_jax/_src/s2grid.py:_rfft", "e3nn_jax/_src/s2grid.py:_irfft", "e3nn_jax/_src/s2grid.py:_expand_matrix", "e3nn_jax/_src/s2grid.py:_rollout_sh", "e3nn_jax/_src/s2grid.py:_normalization")
p("C46", "batch_norm keeps equivariance and running statistics",
  "batch_norm subtracts means only from even scalars, scales each irrep instance by one scalar; hence is equivariant; running statistics are convex combinations of the old value and batch statistics.",
  "all irreps, data, momentum", "continuum, unbounded",
  "e3nn_jax/_src/batchnorm/bn.py:batch_norm")
p("C47", "Dropout scales whole irreps",
  "Dropout multiplies each irrep copy by one of 0 or 1/(1-p); it commutes with the action and is the identity when p=0 or not training.",
  "all random draws", "all random masks",
  "e3nn_jax/_src/dropout_haiku.py:Dropout")
p("C48", "Radial windows have their support and bounds",
  "sus is 0 on x<=0, positive elsewhere, smooth envelope vanishes outside its support; poly_envelope has value 1 at 0 and 0 at and beyond the cutoff with n0/n1 vanishing derivatives; soft_one_hot basis functions with cutoff vanish outside [start,end].",
  "all reals", "continuum",
  "e3nn_jax/_src/radial.py:sus", "e3nn_jax/_src/radial.py:poly_envelope", "e3nn_jax/_src/radial.py:soft_envelope", "e3nn_jax/_src/radial.py:soft_one_hot_linspace")
p("C49", "Legacy tensor product implementations agree",
  "FunctionalTensorProduct: for every accepted instruction list (all connection modes) fused and unfused evaluation of left_right and the matrix of right compute the same equivariant bilinear map, given by the table of coefficients of each mode; the number of weights is the sum of the path sizes and a flat weight array equals the list of arrays; where output_mask is False the output vanishes; for random weights and inputs of the declared variances the output has the declared variance; the fully connected product has exactly one instruction per allowed triple.",
  "all instruction lists and connection modes", "unbounded instruction lists",
  "e3nn_jax/_src/legacy/core_tensor_product.py:FunctionalTensorProduct")
p("C50", "Permutation-symmetric basis reduction",
  "An index formula with signs (e.g. ijk=-jik=jki) is accepted exactly when all sides are arrangements of the same distinct letters and the first has no sign; the loop that closes it under composition terminates and returns the generated signed group; the permutation basis has orthonormal rows, each satisfies every equation of the formula, and every tensor satisfying them is their combination (a formula forcing T = -T is not rejected: its basis is empty). Irreps given by letter are propagated along the exchanges and rejected when they cannot be. Fully (anti)symmetric products and sub-groups of indices behave likewise.",
  "all formulas, all dimensions of the indices, all tensors", "unbounded dimension and groups; the generated group grows factorially",
  "e3nn_jax/_src/reduced_tensor_product.py:germinate_perm_repr", "e3nn_jax/_src/reduced_tensor_product.py:reduce_permutation_base")
p("C51", "IrrepsArray indexed update",
  "x.at[idx].set(v) / add(v) changes exactly the addressed leading positions, keeps the others, and sets zero flags only when the result is really zero.",
  "all x, v, indices", "unbounded shapes and flags",
  "e3nn_jax/_src/irreps_array.py:_IndexUpdateRef")
p("C52", "Spherical harmonics",
  "spherical_harmonics(outputs, x, normalize, normalization, algorithm) accepts exactly the well-typed requests (degrees/irreps of the vector's parity, known normalization, an algorithm naming a basis) and returns, for every algorithm, the same array whose component m of degree l is the documented constant times |x|^l times the real spherical harmonic (l,m) at the polar coordinates of x; it depends only on the degrees requested (order and duplicates just copy), is homogeneous of degree l (so has parity (-1)^l), depends on the direction only when normalize=True, is O(3)-equivariant, satisfies the addition theorem, has the documented norm ('norm': 1, 'component': 2l+1, 'integral': (2l+1)/4pi), is orthonormal over the sphere for 'integral', and the custom_jvp rule is accepted exactly when it can be evaluated and returns the true derivative.",
  "every request, degree, vector, normalization, algorithm and leading shape", "continuum of vectors and unbounded degree; the algorithms are different recursions",
  "e3nn_jax/_src/spherical_harmonics/__init__.py:spherical_harmonics", "e3nn_jax/_src/spherical_harmonics/recursive.py", "e3nn_jax/_src/spherical_harmonics/legendre.py")
p("C53", "Configuration registry",
  "config(name, value) changes only that name, later reads return the last write, unknown names are rejected.",
  "all histories of reads and writes", "unbounded histories",
  "e3nn_jax/_src/config.py:config")
p("C54", "Rational rounding, Gram-Schmidt and basis intersection helpers",
  "normalize_integer_ratio reduces a fraction to lowest terms with a positive denominator; limit_denominator terminates and returns, for every fraction in lowest terms, a closest fraction with denominator at most max_denominator (except when the denominator equals max_denominator: then 0/1 is returned); round_to_sqrt_rational keeps the sign and returns the root of the closest fraction to the square; gram_schmidt returns orthonormal rows in the span of the input, which span every input row up to epsilon, is idempotent (but overwrites its argument); basis_intersection returns projections with orthonormal rows whose images are exactly the vectors common to both row spaces, and refuses bases of different widths.",
  "all fractions and bounds, all matrices, all pairs of bases", "unbounded fractions and matrix sizes, a continuum of entries",
  "e3nn_jax/_src/utils/math_numpy.py:gram_schmidt", "e3nn_jax/_src/utils/math_numpy.py:limit_denominator", "e3nn_jax/_src/utils/math_numpy.py:basis_intersection")
p("C55", "grad returns the Jacobian as an IrrepsArray",
  "e3nn.grad(f)(args) returns the irreps of (output irreps) x (input irreps), entry by entry; its leading shape is that of the output followed by that of the argument, and each component is the Clebsch-Gordan combination of the partial derivatives (so that nothing of the Jacobian is lost); if f is equivariant and differentiable so is grad(f); for a scalar function the result is the gradient in the layout of the argument; argnums selects the argument as a Python index and non-IrrepsArray arguments or results are rejected (a function whose result has a chunk flagged zero is refused too).",
  "all functions of arrays, arguments and group elements", "function space and continuum of inputs",
  "e3nn_jax/_src/grad.py:grad")
p("C56", "Only equivariant indexing is accepted",
  "x[idx] on the leading axes selects rows exactly as numpy indexing does and keeps the irreps; an index that would reach the irreps axis is rejected unless it is an Irreps, a string or a unit-step slice that falls on chunk boundaries.",
  "all arrays and index expressions", "unbounded shapes and index tuples",
  "e3nn_jax/_src/irreps_array.py:IrrepsArray.__getitem__", "e3nn_jax/_src/irreps_array.py:_is_ellipse")
p("C57", "norm_activation, soft_normalization and key_value_activation are equivariant",
  "norm_activation multiplies each copy v by act(|v|) (norm or component norm; 1 for the zero vector) and commutes with every element of O(3); soft_normalization keeps the direction of each copy and makes its component norm strictly smaller than max_component; key_value_activation commutes with every isometry applied to key and value.",
  "all arrays, functions, thresholds and group elements", "continuum of inputs and group elements",
  "e3nn_jax/_src/activation.py:norm_activation", "e3nn_jax/_src/activation.py:soft_normalization", "e3nn_jax/_src/activation.py:key_value_activation")
p("C58", "reduced_tensor_product_basis returns an orthonormal, equivariant and complete basis",
  "For a list of irreps, or a formula such as ijk=-jik with the irreps of its indices, or a symmetric/antisymmetric power, reduced_tensor_product_basis returns an array of shape (d1, ..., dn, irreps_out.dim) whose tensors T_c are orthonormal, all have the requested symmetry, and rotate like irreps_out when their n indices are rotated; irreps_out is sorted, simplified and within keep_ir; and nothing is missing: every multiplet of symmetric tensors of a kept irrep is a combination of the T_c, and every symmetric tensor is when keep_ir is None.",
  "all irreps, numbers of indices, formulas, keep_ir and group elements", "unbounded degrees, multiplicities, numbers of indices; continuum of rotations",
  "e3nn_jax/_src/reduced_tensor_product.py:reduced_tensor_product_basis", "e3nn_jax/_src/reduced_tensor_product.py:reduced_symmetric_tensor_product_basis", "e3nn_jax/_src/reduced_tensor_product.py:reduced_antisymmetric_tensor_product_basis", "e3nn_jax/_src/reduced_tensor_product.py:reduce_basis_product", "e3nn_jax/_src/reduced_tensor_product.py:constrain_rotation_basis_by_permutation_basis")
p("C59", "tensor_product_with_spherical_harmonics is the tensor product with the spherical harmonics",
  "tensor_product_with_spherical_harmonics(input, vector, degree) equals tensor_product(input, spherical_harmonics(range(degree + 1), vector, True)) for every input and every vector, including vectors near the poles of the angles it uses; it commutes with every rotation and reflection, depends only on the direction of the vector, broadcasts the leading axes, and rejects a second argument that is not one vector.",
  "all irreps, degrees, arrays, leading shapes, vectors and group elements", "continuum of vectors and rotations; unbounded degrees",
  "e3nn_jax/_src/tensor_product_with_spherical_harmonics.py:tensor_product_with_spherical_harmonics", "e3nn_jax/_src/tensor_product_with_spherical_harmonics.py:impl")
p("C60", "The Linear modules: irreps and shape of the result, equivariance, weights per row, names of the parameters",
  "Calling a haiku, flax or equinox Linear module on an IrrepsArray it accepts returns an IrrepsArray whose irreps are the requested ones (all of them with force_irreps_out, otherwise those that occur in the input) and whose leading shape is the broadcast of the leading shapes of the input and of the weights, with the last axis replaced by channel_out when that is given (equinox: with channel_out appended). The call is equivariant under every rotation and reflection and, without biases, linear. Each row of the result is what the module without external weights computes from that row of the input with the parameters of that row: the slice its index picks, or the normalised combination of the slices with its weights. No two parameters share a name. With the default options every equivariant linear map is obtained for some parameters. Inputs whose irreps differ from irreps_in, and weights that do not fit the configuration, raise ValueError.",
  "all module configurations, all parameter dictionaries of the requested shapes, all inputs, zero flags, weights, indices, leading shapes, rotations and reflections",
  "a test fixes one configuration, one random set of parameters and one input; the options interact (zero chunks, channel axes, broadcasting of the weights, forced irreps)",
  "e3nn_jax/_src/linear_haiku.py:Linear", "e3nn_jax/_src/linear_flax.py:Linear", "e3nn_jax/_src/linear_equinox.py:Linear", "e3nn_jax/_src/linear.py:linear_vanilla", "e3nn_jax/_src/linear.py:linear_indexed", "e3nn_jax/_src/linear.py:linear_mixed", "e3nn_jax/_src/linear.py:linear_mixed_per_channel", "e3nn_jax/_src/linear.py:validate_inputs_for_instructions")
p("C61", "SymmetricTensorProduct: value, equivariance, completeness, parameters per channel",
  "SymmetricTensorProduct(orders, keep_irrep_out)(x) returns, with the shape of x, one copy of every irrep that occurs in the symmetric power of x.irreps of some requested order (and is kept), sorted; its components are the sum over the requested orders o of the tensors of the symmetric basis of order o contracted o times with x, mixed by the parameters w{o}_{irrep} divided by the multiplicity. It commutes with every rotation and reflection; each channel depends only on the same channel of x and on its own column of the parameters; with a single order it is homogeneous of that degree; two different (order, irrep) pairs never share a parameter; and for every choice of equivariant symmetric tensors there are parameters that realise it. No orders, an order 0 or a missing channel axis are rejected.",
  "all orders, irreps, filters, numbers of channels and batch axes, parameters, inputs, rotations and reflections",
  "a test fixes a few orders and irreps; the Horner-like loop shares work between orders and treats the first occurrence of an irrep separately",
  "e3nn_jax/_src/symmetric_tensor_product_haiku.py:SymmetricTensorProduct", "e3nn_jax/_src/reduced_tensor_product.py:reduced_symmetric_tensor_product_basis")

p("C62", "MultiLayerPerceptron: what it computes, on which inputs, and what its normalisations guarantee",
  "MultiLayerPerceptron(list_neurons, act, gradient_normalization, output_activation, with_bias) maps every row of its input by one function that only depends on the parameters: unit j of a layer with N inputs is act(N^(-gn/2) (sum_q x_q w[q,j] + b[j])), with the hidden activation between layers and the output activation (the hidden one for True, none for False, the given one otherwise) after the last layer, both normalised as by normalize_function. An IrrepsArray is accepted iff it is made of 0e only (ValueError otherwise), gives list_neurons[-1] x 0e, and rotating it changes nothing. Parameters drawn with the initial standard deviation keep the second moment of every unit (before its activation) equal to the mean square of the layer's inputs, whatever the gradient normalisation, and two gradient normalisations give the same function up to a rescaling of the parameters of each layer. A layer without inputs raises ZeroDivisionError; without layers the input is returned.",
  "all lists of layer sizes, activations, biases, gradient normalisations, parameters, leading shapes and inputs, all rotations",
  "depth, sizes, activations and parameters are unbounded; the variance statement is about a distribution",
  "e3nn_jax/_src/mlp_haiku.py:MultiLayerPerceptron", "e3nn_jax/_src/mlp_flax.py:MultiLayerPerceptron")

p("C63", "MessagePassingConvolution: a sum over incoming edges, with the symmetries of space and of the graph",
  "MessagePassingConvolution(target_irreps, radial_basis, ...)(positions, node_feats, senders, receivers) returns one row per node, of irreps among target_irreps. The row of a node is a function of the multiset of pairs (features of the sender, position of the receiver minus position of the sender) over the edges that end at that node, and of nothing else: it does not change under a common translation, under another order of the edges, or when anything outside its incoming edges changes; renaming the nodes renames the rows; a node without incoming edges gets zeros; two lots of edges give the sum of their results; the result is linear in node_feats. Rotating, reflecting or inverting positions and node_feats transforms the result accordingly. A call that succeeds succeeds on every other graph of the same kind. For scalar features, target 0e+1o and degree 1 it is the standard formula: component 0 sums f_0(B(r)) x over the incoming edges and components 1..3 sum f_1(B(r)) x sqrt(3) times the unit vector from sender to receiver, times the two Linear weights over the square root of avg_num_neighbors.",
  "all graphs (numbers of nodes and edges, positive or negative indices), positions, features, parameters, target irreps, radial functions, MLP sizes and activations, all of O(3)",
  "unbounded graphs, irreps and parameters; continuum of positions and rotations",
  "e3nn_jax/experimental/point_convolution.py:_call", "e3nn_jax/experimental/point_convolution.py:MessagePassingConvolutionHaiku", "e3nn_jax/experimental/point_convolution.py:MessagePassingConvolutionFlax")

p("C64", "zoom: resampling voxel images keeps what an interpolation must keep",
  "zoom(image, output_size or resize_rate, interpolation) puts both grids on the same box, so that voxel i of m reads the image at (i + 1/2) n / m - 1/2. 'linear' is the sum over all voxels of the product of three tent functions of the position moved into the box: it never overshoots, keeps constants, reads images that are affine in each coordinate exactly, is linear in the image, commutes with mirrors and with exchanges of axes, and halving every axis takes the mean of each 2 x 2 x 2 block. Both modes leave the image unchanged when the size does not change; 'nearest' repeats voxels when sizes are multiplied by whole numbers. resize_rate rounds each size to the nearest integer, halves to even; a call succeeds exactly when one of the two arguments is given, every size is positive, the image has no empty axis and the mode is known.",
  "all images of any sizes and leading shape, all output sizes, rates and real positions",
  "unbounded sizes; continuum of positions and values",
  "e3nn_jax/experimental/voxel_pooling.py:zoom", "e3nn_jax/experimental/voxel_pooling.py:_zoom", "e3nn_jax/experimental/voxel_pooling.py:interpolate_trilinear", "e3nn_jax/experimental/voxel_pooling.py:interpolate_nearest")

p("C65", "Transformer: attention over incoming edges, with the symmetries of space and of the graph",
  "Transformer(irreps_node_output, list_neurons, act, num_heads)(edge_src, edge_dst, edge_weight_cutoff, edge_attr, node_feat) returns one row per node, of irreps among irreps_node_output: a linear map of the sum, over the edges e that end at the node, of the value of e (a function of the features of the source and of the attributes of e), every copy of an irrep multiplied by the square root of the coefficient alpha(e, h) of its head h. With non-negative cutoffs alpha(e, h) = cutoff(e) exp(score(e, h)) / sum over the edges f into the same node of cutoff(f) exp(score(f, h)): the subtraction of the largest score never shows; coefficients are between 0 and 1 and sum to 1 over the edges into a node that has an edge of positive cutoff. Scores are unchanged by rotations, values and the last map are equivariant, so rotating, reflecting or inverting node_feat and edge_attr transforms the result accordingly. The row of a node depends on its own features and on the multiset of (features of the source, attributes, cutoff) of its incoming edges only; edges of cutoff 0 can be removed; renaming nodes renames rows; a node without incoming edges gets zeros. A call that succeeds succeeds on every other graph of the same kind.",
  "all graphs (numbers of nodes and edges, positive or negative indices), features, edge attributes, cutoffs, parameters, irreps, numbers of heads, MLP sizes and activations, all of O(3)",
  "unbounded graphs, irreps and parameters; continuum of features, cutoffs and rotations",
  "e3nn_jax/experimental/transformer.py:Transformer", "e3nn_jax/experimental/transformer.py:_index_max")

p("C66", "shtp: the tensor product with the direction of a vector through maps that keep the order about it",
  "shtp(input, direction, filter_irreps_out) accepts exactly one row of features, one vector (1o or 1e), a non-empty input and a non-empty filter. The output irreps are sorted; for every requested irrep (once, however often it is listed), entry of the input and copy there are min(l, l') + 1 symmetric channels when p^(l + l') is the product of the parities (p the parity of the direction) and min(l, l') antisymmetric ones when p^(l + l' + 1) is. The result is equivariant under O(3) acting on input and direction together, a linear function of the input, depends only on the direction of the vector (a zero vector is read as (0, 0, 1)), and for a vector along the second axis the channels copy the components of order m and -m into the order m and -m, the antisymmetric ones exchanging them with a sign. These are as many as the degrees l such that the product of the input irrep with a spherical harmonic of degree l (parity p^l) contains the output irrep, and nothing is missing: every linear map between two irreps that commutes with the orthogonal matrices that fix the vector is a combination of the channels, in one way.",
  "all inputs, irreps, directions (any non-zero length), filters, parities, and all rotations, reflections and the inversion",
  "continuum of inputs, directions and transformations, gimbal lock included; all degrees",
  "e3nn_jax/experimental/linear_shtp.py:shtp")

p("C67", "voxel convolution: one kernel for the whole grid, with the symmetries of space",
  "Convolution(irreps_out, irreps_sh, diameter, num_radial_basis, steps)(input, steps) returns irreps_out on the grid of voxels of the input ('SAME' padding, or the voxels whose window lies in the grid, with the same values, for 'VALID'). The value at a voxel is the sum over all voxels w of the grid of (features at w) times K(position of w minus position of the voxel), with one matrix-valued function K that depends only on the parameters and the steps: K(0) is the matrix of the self-connection (an equivariant Linear layer), K is zero from the distance diameter / 2 on (so the rounded size of the stored kernel does not matter), and K turned by a rotation is K of the turned displacement. Hence rotating or reflecting the grid onto itself (voxels moved, features transformed) transforms the result accordingly; moving an image that stays inside the grid moves the result; features at distance diameter / 2 and further have no influence; the result is linear in the input. Entries of irreps_out that no path of the tensor product reaches are zero.",
  "all grids, batches, irreps, step sizes (dynamic steps not smaller than the static ones), diameters, parameters, all symmetries of the grid (rotations, and with harmonics of natural parity also reflections and the inversion), all integer translations",
  "unbounded grids, irreps and parameters; continuum of steps, features and parameters",
  "e3nn_jax/experimental/voxel_convolution.py:_tp_weight", "e3nn_jax/experimental/voxel_convolution.py:_kernel", "e3nn_jax/experimental/voxel_convolution.py:_call", "e3nn_jax/experimental/voxel_convolution.py:ConvolutionHaiku", "e3nn_jax/experimental/voxel_convolution.py:ConvolutionFlax")

p("C68", "LinearSHTP: an equivariant linear combination of the channels about a direction",
  "LinearSHTP(irreps_out, mix)(input, direction), for any value of its parameters: it succeeds exactly when the input is one row, the direction one vector (or pseudovector) and, with mix, each entry of irreps_out is reached by some entry of the input. The result is equivariant: a rotation, reflection or inversion of input and direction transforms the output in the same way; it is linear in the input and in the parameters, and depends on the direction but not on the length of the vector (a zero vector is read as (0, 0, 1)). For a direction at the pole the value is the sum over entries of the input, kinds of channel, copies and channels of parameter times channel (the channels of shtp, see C66), divided by the square root of the number of copies read (mix), or each copy apart (no mix). With mix the irreps of the result are irreps_out regrouped.",
  "all input irreps and irreps_out, all parameters, features and nonzero directions, all orthogonal matrices, both values of mix",
  "unbounded irreps; continuum of parameters, features, directions and rotations",
  "e3nn_jax/experimental/linear_shtp.py:LinearSHTP", "e3nn_jax/experimental/linear_shtp.py:sum_tensors", "e3nn_jax/experimental/linear_shtp.py:sl")

if __name__ == "__main__":
    out = os.path.join(os.path.dirname(os.path.abspath(__file__)), "..", "properties.jsonl")
    with open(out, "w") as f:
        for q in P:
            f.write(json.dumps(q) + "\n")
    print(len(P))
