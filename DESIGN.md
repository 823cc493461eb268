# Formal model of PerMaViss in Rocq (Coq 8.16.1)

## Approach

* Shallow, executable Gallina model of the Python code, function by function, in `rocq/theories/*_model.v`.
  Every definition cites file and lines.  Exceptions are values (`res A := Ok a | Err e`); loops are folds or
  fuelled recursion whose out-of-fuel value `Err OutOfFuel` is proved unreachable.
* Proofs live in other files; theorems that back a property live in `Props_*.v`, which contain only
  specifications, theorems (closed by `exact lemma`), non-vacuity examples and `Print Assumptions`.
* Scalars are unbounded `Z` (numpy float64/int64 arrays holding small integers are exact below 2^53).
* Radii/births/deaths are `Z`: the code only compares them, takes maxima and rounds them for sorting.  Every finite
  double is an integer multiple of 2^-1074, so integers in that unit represent them exactly.
  `np.around` is an arbitrary function `rnd : Z -> Z` (monotone where needed).
* `np.argsort` (default quicksort, not stable) is an oracle: any function returning a sorting permutation.
* Matrices are column-major: `mat := { nrows; cols : list (list Z) }`, so shapes n x 0 and 0 x n are distinguished.
* `generate_cover` stores its corners in an array of the type of the point cloud; the parameter `cast` is that
  conversion (identity for float clouds, truncation for integer clouds).
* Cover geometry is over exact rationals `Q`; example point clouds over the reals `R` (stdlib axioms).
* The model is run on the unit tests of `/repo/test` that need neither data files nor random numbers, and on the examples
  of the docstrings (`IK_tests.v`, `Repo_tests.v`): it gives the expected values.

## Plan per property

What is modelled, and how it is to be proved.  The status actually reached is in `MANIFEST.json`.

| id | modelled | proof |
|---|---|---|
| C01-C02 | `inv_mod_p` loop with fuel | Bezout invariant + alternating-sign bound; fuel bound by halving every two steps |
| C03-C06 | `gauss_col` column by column, `index_pivot` | invariant on (R,T) pairs: A*t = r, t unitriangular, distinct pivots; pivot strictly decreases |
| C07-C09 | `solve_mod_p`, `solve_matrix_mod_p` | from C03-C06; completeness by pivot independence. Documented `A X = B` form refuted (code transposes B) |
| C10-C11 | `gauss_col_rad` | loop invariant; completeness under distinct pivots among usable columns |
| C12 | `gauss_barcodes` | per column from C03-C08 on the selected submatrix |
| C13-C15 | `vietoris_rips` loops, argsort as oracle | spec: cliques of the threshold graph with diameter radius |
| C16 | `flag_complex` | same clique spec |
| C17-C18 | `complex_differentials` | entry formula spec; D.D = 0 by pairing of double faces |
| C19-C25 | `persistent_homology` | reduction invariants + clearing argument; homology spec in elementary linear-algebra form |
| C26 | `local_persistent_homology` pipeline | composition of C13-C25 |
| C27 | tie order | persistent Betti numbers determine the barcode |
| C26, C39, C40 | barcodes (`Spec_Bars.v`) | a family with bars whose dying members are combinations of older ones gives the ranks between radii; ranks determine the bars |
| C28-C31 | `barcode_basis` class | direct |
| C32-C37 | `cubical_cover.py` over Q | arithmetic of mixed-radix positions, interval geometry |
| C38-C40 | `image_kernel.py`, `module_persistence_homology.py` | loop invariants; refutations where the code is wrong |
| C41-C42 | `local_chains_class.py` | denotation of a local chain as a function (simplex position, coefficient row) |
| C43-C47 | Cech differential, vertical differential, lifts | denotational semantics in the double complex |
| C48 | `take_sample` | greedy farthest-point invariant |
| C49 | point-cloud generators | real-number identities |
| C50 | `persistent_homology` output | bars counted by persistent Betti numbers, from C19-C25 |
| C51 | nerve of the cover against actual intersections | interval arithmetic; refuted for overlap >= side |
| C53 | `first_differential` | zig-zag of C46 summed over the windows of C47; covers without homology by spanning (C20) |
| C55 | `create_MV_ss` | executed on clouds where the answer is wrong; C26 gives the right barcode |
| C52 | `generate_cover` against the input of the spectral sequence | cliques of touching positions extend to boxes |
| C56 | second page, pages 0 to 2 of `create_MV_ss` | C53 gives the matrices up to boundaries, C40 the homology of modules; transported to chains on simplices of the cloud |
| C57 | degree 0 of the result | gluing local chains: the corner of the second page is the degree 0 homology of the cloud, later pages leave it alone |
| C58 | last step of `create_MV_ss`, `image_kernel` into a broken basis | invariant of the loop: columns equal the generators modulo the relations so far; rows which still wait to be extended belong to one column |
| C59 | whole result for covers of which no three elements meet | chains of the cloud are glued from the two columns (`Two_col.v`); C56 gives the second page, C47/C54 the lifts, C58 the extension; lifts over elements without homology are completed by hand, which `first_page_lift` does not notice (`HP_conv.v`) |
| C60 | total correctness if, in addition, the intersections have no homology in positive degrees and the cloud has at least two coordinates | the tables before the diagonals never fail (`HP_two.v`); the lift of each extension ends because the gammas vanish and the references of the classes agree (`HP_lift.v`, `HP_refs.v`, `HP_exto.v`, `HP_all.v`); `MV_total.v` identifies the intersections with bands of the cloud |
| C61 | if all intersections are acyclic, the second page is the Rips barcode, place (n, 0) in degree n; covers of any shape | the persistent form of the nerve theorem: the rows of the double complex are exact because the complex over each simplex of the cloud is that of a full simplex (`Nerve_bd.v`, `Nerve_alg.v`), the columns by hypothesis; a chain of linear relations carries the barcode from one end to the other |
| C62 | on covers with acyclic intersections: what `mv_ss` returns, and when it returns nothing | the rows above row 0 vanish on every page and row 0 keeps its bars (`Nerve_pages.v`, `Nerve_tables.v`); the blocks of the extension matrices continue bars by older ones that live longer (`Spec_Elder.v`, `Ext_elder.v`, `IK_elder.v`, `Nerve_ext.v`), and such extensions change no bar (`Bars_weak.v`, `Bars_indep.v`, `Bars_ends.v`); in column 2 and later the second page has fewer classes than the first (`Nerve_strict.v`), so the lift to page 3 has blocks of different heights and fails unless nothing is to be extended (`Nerve_result.v`); `Nerve_err.v` computes a cover of seven points (an octahedron and a seventh point) where it raises ValueError, `Nerve_twin.v` a cover of five points, two at distance 0 of each other, where it raises RuntimeError; all pages are computed on such covers (`Nerve_higher.v`, `Nerve_total.v`), and so is the result when every bar of positive degree reaches `max_r` (`Nerve_returns.v`) |
| C63 | the representatives in `Hom_reps`: staircases in the double complex (`Spec_Zig.v`) | invariant over the table of representatives (`HP_zig.v`): `sums`, `add_preimages` and the vertical lift keep the identity "d_v(next) + d_cech(chains) = 0" where there are classes; `Zig_err.v` computes a cloud where it fails elsewhere and a cover where representatives become zero |
| C64-C67 | the local pipeline on another scale, up to a smaller radius, for another order of the points, with repeated points (`Spec_Symm.v`) | by C26 and uniqueness of barcodes it is enough to show this for the barcode of the Rips filtration: radii of the new scale go back to radii of the old one, cutting is read off the ranks (`Rips_scale.v`); exchanging two neighbouring points is an isomorphism of chain complexes which reverses the simplices that have both, and any order is reached by such exchanges (`Rips_order.v`); a repeated point is moved to the point it repeats, which a cone shows to change no class (`Rips_dup.v`); `Symm_props.v` |
| C68, C69 | results of different calls of `create_MV_ss` agree: other covers, the local pipeline on the whole cloud, and the changes of C64 to C67 (`Spec_Agree.v`) | C57 in degree 0, C59 or C62 in all degrees, the changes of the Rips barcode from C64 to C67 and uniqueness of barcodes; `Agree_props.v` |
| C70, C71 | bars of degree 0 are born at 0 and count the connected components at each radius (`Spec_Comp.v`), hence do not depend on the prime; in degree 1 they can (`C71_degree_one_refuted`, a projective plane) | labels constant on components exist; one point of each component is a basis of the chains modulo boundaries, by the sum of the coefficients on a component; uniqueness of the dimension; C26 and C57; `Rips_comp.v`, `Comp_props.v` |
| C72, C73 | bars begin and end at 0, at distances or at `max_r`; beyond the largest distance of a point to the others only the bar (0, `max_r`) of degree 0 is left (`Spec_Ends.v`) | the complexes change only at distances (`Bars_ends.v`); every cycle of positive degree is the boundary of its cone from the centre, and C70 in degree 0; `Rips_cone.v` |
| C74 | the cells of a degree present at a radius are the classes alive, the images born and the images of the degree below born; Euler characteristic (`Spec_Euler.v`) | from the dimensions of cycles and boundaries (C07); telescoping sum; the Rips complex lists each simplex once; `PH_euler.v`, `Rips_euler.v` |
| C75, C76 | bars change by at most `e` at both ends when distances do, counted over intervals; samples within `e` have the bars up to `2 e` (`Spec_Stable.v`) | the complexes of one cloud lie between those of the other, so cycles modulo boundaries are compared by inclusion; a pairing becomes an inclusion by repeating points (C67); births at 0 (C70) in degree 0; for `take_sample` from C48; `Rips_stable.v`, `Stable_props.v` |
| C77 | bars of near clouds can be matched one to one up to `e` at both ends, except bars not longer than `2 e` (`Spec_Stable.v`) | the classes of one cloud seen in the other have ranks of their own, and a list of bars with these ranks; it shares the births of the first barcode and the deaths of the second, and is matched with each by counting; no axioms, as whether a matching exists can be decided; `Stable_lin.v`, `Stable_match.v`, `Stable_bottle.v`, `Stable_rips.v` |
| C78 | the bars of a cloud of two parts at a distance of at least `M` are those of the parts together (`Spec_Union.v`) | below `M` no simplex has vertices in both parts, so chains are sums of chains of the parts, the boundary respects this, and bases of the quotients are put together; any order of the points by C66; `Rips_union.v`, `Union_props.v` |
| C79 | `add_mod_c` and `add_arrays_mod_c` return the remainder with the sign of the modulus (`Spec_Arith.v`) | bounds of `Z.modulo` for either sign of the modulus, and two remainders differ by a multiple of the modulus; `Arith_props.v` |
| C54 | `first_page_lift` | local lifts of C45 over every simplex of the nerve, without the exception of C46 |

## Trusted base

Coq kernel; the axioms printed by `Print Assumptions`; faithfulness of the model to the code as cited.

The core uses no axioms.  The theorems on the example point clouds (C49) use the axioms of the standard library's real
numbers: `ClassicalDedekindReals.sig_not_dec`, `ClassicalDedekindReals.sig_forall_dec` and
`FunctionalExtensionality.functional_extensionality_dep`.  There `np.random.rand()` is an arbitrary sequence of reals,
in [0, 1) where stated, and floating-point rounding is not modelled.  In `take_sample` (C48) the matrix of distances and
the random start are arbitrary.

`coqchk` also lists constants that no theorem depends on: seven of `Coq.ssr.ssrunder.Under_rel` and those of
`Coq.Reals.Rdefinitions` (opaque module fields of the standard library), and `Classical_Prop.classic`, which comes with the
loaded Reals libraries but is not printed by `Print Assumptions` for any theorem.

## Where the code departs from its documentation or from the property

Each entry has a witness proved in Coq (theorem in parentheses) unless marked otherwise.

* `inv_mod_p` rejects all negative arguments, also invertible ones (C02_all_integers_refuted).
* `solve_mod_p` raises on zero equations (C08_no_equations_refuted); `solve_matrix_mod_p` solves `A X = B^T`, not
  `A X = B` (C09_documented_contract_refuted).
* `flag_complex` relies on edges listed low-high (C16_unordered_edges_refuted).
* A class dying exactly at `max_rad` is indistinguishable from one living on (C23_max_rad_refuted).
* `barcode_basis([], store_well_defined=True)` raises UnboundLocalError (C28_store_empty_refuted); rounding in `sort`
  can leave bars out of order (C29_exact_order_refuted).
* Covers of integer clouds are truncated (C35_integer_cloud_refuted); with an overlap larger than a side the nerve is
  not that of the actual intersections (C51_large_overlap_refuted).
* `image_kernel`: line 181 overwrites the death of an image bar which already ended, so image bars can outlive the
  image (C39_image_refuted; the example of the docstring is affected too, IK_tests.test_2_bars); lines 192-193 leave
  `PreIm` inconsistent with `Im` (C39_preimage_refuted); negative entries and an empty domain raise
  (C39_negative_refuted, C39_empty_refuted).
* `quotient` and `module_persistence_homology`: the bars are right, but a returned generator keeps the part of `N` used
  in its last reduction and may not be a cycle at earlier radii (C40_quotient_refuted, C40_coordinates_refuted); a
  module over a zero module is returned undivided (C40_over_zero_refuted); dividing the zero module raises
  (C40_quotient_of_zero), which cannot happen on a complex (C40_no_failure).
* `local_chains` operations assume sorted, non-empty chains (C41_unsorted_refuted, C42_add_entry_empty_refuted).
* `cech_diff_and_lift` computes no lift over a cover set without homology in the degree, so the zig-zag is incomplete
  there (C46_no_homology_refuted).  The first differential is not affected (C53), the second one is: `create_MV_ss` can
  return a class too many (C55_silent_refuted).
* `create_MV_ss` raises when there are classes over an intersection but none in the same degree over the cover elements
  (C55_value_error_refuted, C55_runtime_error_refuted), and leaves out degrees without classes, so that
  `persistent_homology[i]` need not be in degree i (C55_shifted_refuted).
* `module_persistence_homology` copies `Base[d]` into `Hom[d]` when `Base[d-1]` has dimension 0
  (C40_over_zero_refuted), so from the third page on the classes of columns n >= page over a
  zero module keep the coordinates of the page before; `lift_to_page` then appends matrices of different
  heights and raises ValueError (C62_total_refuted).
* `extension` subtracts image classes from a representative and takes the lift of what is left, without correcting the
  next representative for the image.  When a cover separates two points at distance 0 it raises RuntimeError already for
  classes of degree 1 (C62_degree_one_refuted).  `create_MV_ss` with coordinates does not separate such points.
* For the same reason `compute_higher_representatives` multiplies the representatives of such classes by coordinates of
  another page: a bar which is still there on the third page gets representatives which are all zero (C63_nonzero_refuted).
* The vertical lift leaves out simplices of the nerve without classes in the degree, and there "d_v + d_cech = 0" fails
  (C63_everywhere_refuted); at all others it holds (C63_staircase, C63_create).
* In `compute_higher_representatives` the loop over `target_page > 2` reads `Hom_reps[target_page]` where the
  preimages are combinations of classes of `Hom[target_page - 2]`.  Representatives found there have too many families
  for the place they are added to, so the loop finds nothing or raises IndexError (in the proof of `higher_step_ok`).
* A cloud with a constant coordinate gets an empty cover, and `create_MV_ss` returns no bars at all in degree 0
  (C57_flat, C57_flat_refuted).
* `image_kernel` into a broken basis does not follow chains of extensions: two links dying together give wrong bars
  (C58_chain_refuted), a later pivot which appears during an update goes unnoticed and can make `pivot_check_reduce`
  recurse for ever (C58_loop_refuted, C58_forever_refuted).  Chains need at least three columns of the spectral sequence.
* On clouds divided in one direction only, whatever `create_MV_ss` returns is right (C59), but it may still raise
  (C59_returns_refuted).
* C60 gives a condition under which it does not raise: acyclic intersections.  It asks for two coordinates because with one
  coordinate the nerve has two levels only, `no_pages` is 2, and the references kept on the first page need not agree
  (`subtract_beta` raises ValueError); from the second page on, `sums` makes them agree.
* `circle(0, r)` divides by zero (C49_circle_refuted); `ball` loops for ever for a radius that is not positive
  (C49_ball_radius) and only samples a cube of side `radius` inside the ball (C49_ball_small); `random_sphere` ignores
  its radius (C49_sphere_radius_refuted) and can return NaN (C49_random_sphere).
* `take_sample` returns one point when asked for none (C48_no_points).  Its start index -1 is not recognised as the
  last point, which stays selectable; ties go to the lowest index, so it is never taken twice (C48_take_sample).
* Python's recursion limit is not modelled: `pivot_check_reduce` recurses up to p times per row.

## Reading `seeded/LOG.jsonl`

* `killed` means that the build of the edited copy failed; `failed` names the lemma at which a proof script stopped.  This
  does not by itself show that a theorem is false of the edited program: a script can also break on a harmless edit.  The
  two first entries for `circle` are such a case (`circle_aux` remains true of them); they were run again after making that
  script insensitive to the step, and then stop at `circle_distinct_aux`, which is false of them.
* `(not rebuilt)` marks a property file which depends on the edited one and so could not be compiled.  Earlier versions of
  the log also listed property files which do not depend on it; these names were removed, the results were not changed.
