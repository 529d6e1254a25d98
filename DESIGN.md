# Design: a Rocq model of e3nn-jax

## Trusted base
* Coq 8.16.1's kernel, `vm_compute` included (used for the verified checker of the J tables and for literals).
* The reading of the Python source into Gallina. Every definition of a `*Model.v` file cites the file and lines it
  transcribes and says where it simplifies; the list below collects the simplifications.
* Axioms. No axiom is declared here. `ASSUMPTIONS.md` (generated by `tools/mkassumptions.py`) gives the output of
  `Print Assumptions` for every theorem of the manifest. Theorems about lists, permutations and irreps are closed.
  Theorems about real numbers rest on the standard library's `Reals`:
  `ClassicalDedekindReals.sig_forall_dec`, `ClassicalDedekindReals.sig_not_dec`,
  `FunctionalExtensionality.functional_extensionality_dep`, and, where a case distinction on an undecidable proposition is
  made, `Classical_Prop.classic`. Coquelicot (derivatives, integrals, series) is used as a library of proved lemmas; it
  adds no axiom of its own (it loads ssreflect, whose module parameters show up in the gate's list of library constants).
* What is assumed of numpy/JAX is visible in the statements: `eigh` is a parameter with its specification (`eigen_ok`,
  shown satisfiable by the spectral theorem, SpectralProofs.v), `leggauss` with hypothesis `fine`, random draws are parameters.

## Conventions
* `XModel.v`: executable transcription, branch by branch; exceptions are values of `res` (`Ok` / `Err exn`).
* `XProofs*.v`: lemmas. `XProps*.v`: the property theorems `Cnn_*` with the small specifications they use and, beside them,
  non-vacuity examples.
* Suffix `_partial`: part of the property. `_refuted`: the property, or a clause of it, is false of the code, with a witness.
* Numbers: `R` (exact), or an arbitrary type of scalars where nothing else is needed. Floating point rounding, overflow,
  NaN and signed zeros are outside the model.
* Arrays: an `iarray` has irreps, a leading shape and, for each leading multi-index, the row of its last axis; plus the
  zero flags and the chunk cache, which is what C14/C15 are about. numpy's reshape of the last axes
  `(mul*dim) <-> (mul, dim)` is `k = u*dim + i` (row-major).

## Plan and status per property (text in properties.jsonl, theorems in MANIFEST.json)
| id | files | model and proof idea |
|----|-------|-----------|
| C01 | IrrepsStr | parser/printer on ASCII strings (Python `int`, `strip`, `split`); induction on digits/entries |
| C02, C03 | IrrepsModel | Irrep as (l,p), order key, product range; lia, characters for associativity |
| C04-C09 | IrrepsModel | Irreps as list of (mul, irrep); specification = flattened list of irreps |
| C10-C13 | PermModel, PermSign | permutations as lists of nat; Lehmer code; closure with a cardinality measure |
| C14-C22, C51, C56 | ArrayModel, LeadModel | coherence invariant, preserved by each operation and by any program of operations |
| C23, C24 | ActProofs, EquivProofs | action by a family of matrices indexed by irreps; block structure |
| C25-C28 | LinearModel | flat offsets; matrix = layer; intertwining; linear expectation for the variance; LinearComplete/LinearProps2: Schur's lemma gives that the default layer realises every equivariant linear (affine) map with exactly one setting of its weights |
| C29-C32 | TPModel | counting; bilinearity; intertwining with any coupling tensor and with the real Clebsch-Gordan coefficients |
| C33 | ScatterModel | sums by destination |
| C34-C37 | RotationModel | trigonometric identities; case analysis on atan2/acos; exponential series |
| C38-C40 | CGModel, WignerModel, JTables | Racah formula, recurrences, intertwining for every l; J tables verified by a checker proved correct |
| C41, C42, C57 | ActivationModel | functions with parity; equivariance by signs; radial functions |
| C43 | RadiusModel | list filter specification |
| C44, C45 | S2Model, S2PointModel | parity/index logic; quadrature exactness; Fourier sums; Legendre recurrences |
| C46, C47 | NormModel | blockwise scaling; running statistics |
| C48 | RadialModel | real analysis |
| C49 | LegacyModel | sums over paths; fused = unfused = mixed; refutations in the corners |
| C50 | SymModel | signed permutation groups; orbits |
| C52 | SHModel | recursion on l, polynomial identities, equivariance |
| C53 | NormModel | state machine over histories |
| C54 | MathModel | Gram-Schmidt, limit_denominator, basis_intersection over R/Q |
| C55 | GradModel | Jacobian = partial derivatives; intertwining |
| C58 | RtpModel, RtpSymModel | families of multiplets on a tensor space; Schur orthogonality; couplings of complete families are complete; intersection with the invariant tensors; for the optimised symmetric branch: words of powers, symmetrisation over the distinct permutations is an isometry onto the symmetric tensors; uniqueness of the multiplicities |
| C59 | TpshModel | the coupling tensor vanishes off m1 = ±m3 at the pole (selection rule from invariance under rotations about the axis); aligned product = tensor product with the harmonics of the axis; equivariance carries it to every direction |
| C60 | LinModModel | the call is a composition of steps (drop zero chunks, regroup, merge the channel axis, broadcast, layer, split channels, rechunk), each with its effect on rows, locality, length and commutation with the group action (`stage`); completeness = C27_complete conjugated by the sorting of the blocks; names: digits cannot run into separators |
| C61 | StpModel | loop invariant: after order n the entry of an irrep is the sum over the requested orders o > n of the tensors with o - n indices contracted; equivariance from C58's equivariance with the transposed rotation; completeness: coefficients in the C58 basis commute with the group (adjointness), Schur makes them scalars, names are injective; failures from C58_fails_iff and inversion |
| C62 | MlpModel | the loop is a fold of row functions (induction on the layers); the values of the neurons form a run of an independently stated recurrence, which has one solution; variance by linearity of the expectation |
| C63 | ConvModel | every step (gather, edge attributes, tensor product, regroup, MLP weights, scatter) acts row by row with a row function that only depends on the irreps and zero flags (ConvProofs..5), so the layer is `out (sum over incoming edges of msg features vector / sqrt avg)` with msg and out equivariant and linear (ConvProofs6); the theorems quantify over graphs and follow from that form; C63_value evaluates the form for scalar features |
| C64 | VoxelModel | the floor/clip formula of one axis equals a sum of tent functions (VoxelProps.axis); the eight-term formula is the product of three of them; every property of zoom follows from that closed form |
| C65 | TransformerModel | as for C63, every step acts row by row (TransformerProofs..4), so the layer is `out (sum over incoming edges of weigh (sqrt alpha) (val source attr))`; alpha is computed from the list of (cutoff, logit) of the incoming edges, and the shift by the maximum cancels (TransformerProps2); the theorems follow from that closed form |
| C66 | ShtpModel | the `set_at` tables are the 0/1/-1 matrices `band` (ShtpProofs3), which commute with every orthogonal matrix that fixes the pole (rotations about it: cosine/sine form of the Wigner matrix; the half turn: mirror symmetry of the Clebsch-Gordan coefficients; the inversion: parities; ShtpProofs, ShtpProofs2); hence the result does not depend on the rotation that carries the pole to the direction (ShtpProofs5 `along_unique`, `along_move`), and the angles computed by the code, gimbal lock included, give one such rotation (ShtpProofs6). Completeness: a matrix that commutes with the rotations about the pole vanishes between different orders (ShtpProofs7) |
| C67 | VconvModel | `right` of the fully connected tensor product at every point of the lattice is a row `tp_row` of the harmonics (VconvProofs, from C49), covariant by legacy_act and C52, zero outside the radius by C48; the centre is the equivariant matrix of C26/C27 (VconvProofs2); the correlation over the window is re-indexed as a sum over all voxels, those outside the window being too far (VconvProofs3: a permutation of lists, floor of diameter / 2 / steps); filling in of the unreachable entries and the call (VconvProofs4); symmetries of the grid permute the sum |
| C68 | LinShtpModel | each part is a combination of the `band` matrices of C66 (LinShtpProofs); any such combination commutes with the matrices that fix the direction, so conjugating it by a rotation that takes the pole to the direction is well defined and equivariant (LinShtpProofs2); the loops build such a combination (LinShtpProofs3, 4) |

## What is modelled, and what is not
Modelled function by function: irreps.py, perm.py, irreps_array.py (construction, chunks, rechunk, simplify, sort, regroup,
filter, slicing, indexing, `at`, arithmetic, reductions, concatenate/stack/broadcast, mul_to_axis/axis_to_mul, rounding),
linear.py, tensor_products.py, scatter.py, rotation.py, so3.py, su2.py, J.py, activation.py, gate.py, radius_graph.py, radial.py, basic.py (where used),
batchnorm/bn.py, dropout_haiku.py, s2grid.py, spherical_harmonics.py, tensor_product_with_spherical_harmonics.py, reduced_tensor_product.py, grad.py, math_numpy.py,
config.py and the legacy tensor products (core_tensor_product.py and the functional/fused variants).

Simplifications, besides exact arithmetic:
* JAX tracing, jit, sharding and pytrees: only their effect on values; flattening a pytree drops the zero flags (modelled).
  `vmap` is evaluation row by row.
* Division by zero and means over an empty axis are whatever Coq's `/` gives; statements exclude them where it matters.
* `at[...]` index tuples containing `None` are errors; advanced indexing with arrays of indices is not modelled.
* User instructions of linear / legacy tensor products have natural-number indices (a negative Python index is not modelled).
* `scatter`: `dst` covering the irreps axis is not modelled; `mode="promise_in_bounds"` is unspecified out of range.
* Rotations: one rotation at a time unless a theorem says batch; `expm` is the exponential series; the singular `k = 1/2`
  case of C36's degenerate formulas is not modelled.
* J tables: transcribed by `tools/mkjtables.py` from the repository's table as exact algebraic numbers and checked.
* Activation: the sample points used to guess a parity are a parameter. `radius_graph`: batch index out of range is clamped.
* Radial: `poly_envelope` solves its linear system by specification (existence and uniqueness proved); `soft_one_hot` with
  number=1 has step 0.
* batch_norm: mask broadcasting is not modelled. dropout: the draw is a parameter.
* s2grid: associated Legendre values by Rodrigues' formula, `leggauss` by specification, rfft/irfft by their formula;
  s2fft, plotting and sampling are not modelled. Spherical harmonics: sympy's coefficients are exact reals.
* SymModel/RtpModel: Python sets are duplicate-free lists; `frozenset` of small integers iterates in increasing order
  (true below 8 elements; the code relies on it); `keep_ir` is given as a set of irreps; `None` chunks are read as zeros;
  the rounding of coefficients is a parameter (identity in the theorems).
* grad: the Jacobian is the matrix of partial derivatives (Coquelicot's `is_derive`), not jax's autodiff.
* math_numpy: int64 overflow, `as_approx_integer_ratio` on floats and complex Gram-Schmidt are not modelled.
* legacy: variances are non-negative, `0**negative` is not used, fused indices out of range are dropped, the sparse and
  custom-einsum-jvp flags (same values) are ignored.
* experimental: point_convolution.py (with its Linear, MLP and scatter steps), transformer.py, voxel_pooling.py, voxel_convolution.py (VconvModel) and linear_shtp.py (shtp in ShtpModel, LinearSHTP in LinShtpModel) are modelled;
  the MLP and Linear parameters are arguments, the configuration values (default normalizations) are fields.
Not modelled at all: plotting, the parameter handling of the haiku/flax/equinox wrappers, poly_envelope's sympy path,
so3grid.py, the examples.

## Testing the theorems
`tools/mutate.py` applies a seeded bug to a scratch copy of the model, rebuilds and records which theorems fail; the log is
`seeded/LOG.jsonl`. Theorems that survived a bug that falsifies their English claim were tightened (field `tightened`).
