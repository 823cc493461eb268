{"id": "C01", "title": "inv_mod_p returns the modular inverse", "statement": "For a prime p and any positive integer a not divisible by p, inv_mod_p(a, p) terminates and returns an integer x with 1 <= x < p and x*a = 1 (mod p).", "quantifier": "all primes p, all positive integers a not divisible by p", "why_tests_cant": "a and p range over infinite sets; the Euclid loop must terminate and keep its Bezout invariant for all of them", "anchors": ["src/permaviss/gauss_mod_p/arithmetic_mod_p.py:inv_mod_p"]}
{"id": "C02", "title": "inv_mod_p rejects exactly the non-invertible inputs", "statement": "For any modulus p >= 1 and any a > 0, inv_mod_p raises ValueError if and only if gcd(a,p) != 1 or p divides a; it never loops. (For a < 0 the code raises ValueError even when a is invertible mod p: the full-domain version of the claim fails.)", "quantifier": "all moduli p >= 1, all integers a (positive part; negative part as a refutation)", "why_tests_cant": "error behaviour over the whole integer domain", "anchors": ["src/permaviss/gauss_mod_p/arithmetic_mod_p.py:inv_mod_p"]}
{"id": "C03", "title": "gauss_col factorisation A*T = R", "statement": "gauss_col(A,p) returns (R,T) with A*T = R modulo p, for every integer matrix with entries in 0..p-1 and at least one row.", "quantifier": "all primes p, all matrix shapes and entries", "why_tests_cant": "must hold for every matrix; a test fixes a handful", "anchors": ["src/permaviss/gauss_mod_p/gauss_mod_p.py:gauss_col"]}
{"id": "C04", "title": "gauss_col performs only left-to-right column additions", "statement": "The T returned by gauss_col is square, has ones on the diagonal and zeros below it, and entries in 0..p-1; column j of R is column j of A plus a combination of columns with smaller index only. Hence for every n the first n columns of R and of A span the same space mod p.", "quantifier": "all primes p, all matrices, all prefixes n", "why_tests_cant": "filtration-compatibility of the reduction is needed for every prefix of every matrix", "anchors": ["src/permaviss/gauss_mod_p/gauss_mod_p.py:gauss_col"]}
{"id": "C05", "title": "gauss_col output is reduced", "statement": "No two distinct nonzero columns of the R returned by gauss_col have the same pivot (index of last nonzero entry); the nonzero columns of R are linearly independent mod p.", "quantifier": "all primes p, all matrices", "why_tests_cant": "uniqueness of pivots is a global invariant of the loop", "anchors": ["src/permaviss/gauss_mod_p/gauss_mod_p.py:gauss_col", "src/permaviss/gauss_mod_p/gauss_mod_p.py:index_pivot"]}
{"id": "C06", "title": "gauss_col always terminates and never fails on reduced input", "statement": "On every matrix with entries in 0..p-1 and p prime, gauss_col terminates without raising; on an arbitrary integer matrix it still terminates (possibly with ValueError).", "quantifier": "all matrices and moduli", "why_tests_cant": "the inner while loop has no syntactic bound; termination needs a measure", "anchors": ["src/permaviss/gauss_mod_p/gauss_mod_p.py:gauss_col"]}
{"id": "C07", "title": "solve_mod_p is sound", "statement": "If solve_mod_p(A,b,p) returns x then A*x = b modulo p, x has one entry per column of A and all entries lie in 0..p-1.", "quantifier": "all primes, matrices A with at least one row, vectors b with entries in 0..p-1", "why_tests_cant": "all linear systems", "anchors": ["src/permaviss/gauss_mod_p/functions.py:solve_mod_p"]}
{"id": "C08", "title": "solve_mod_p is complete", "statement": "solve_mod_p(A,b,p) raises ValueError if and only if no x with A*x = b (mod p) exists.", "quantifier": "all primes, all systems with reduced entries", "why_tests_cant": "non-existence of a solution is a universally quantified statement", "anchors": ["src/permaviss/gauss_mod_p/functions.py:solve_mod_p"]}
{"id": "C09", "title": "solve_matrix_mod_p solves A*X = B transposed", "statement": "If solve_matrix_mod_p(A,B,p) returns X then A*X = B^T (mod p), and it raises ValueError iff some row of B is not in the column space of A. The documented contract A*X = B is false in general.", "quantifier": "all primes, matrices A, B with reduced entries", "why_tests_cant": "all systems; includes that columns of B never contaminate each other", "anchors": ["src/permaviss/gauss_mod_p/functions.py:solve_matrix_mod_p"]}
{"id": "C10", "title": "gauss_col_rad soundness", "statement": "If gauss_col_rad(A,R,start,p) returns (Red,T) then every column j >= start of Red vanishes, A*T[:,j] = 0 mod p, T[j,j]=1, and column j is expressed only through columns k < start with R[k] <= R[j].", "quantifier": "all primes, matrices, radii vectors, start indices", "why_tests_cant": "filtration compatibility of all liftings", "anchors": ["src/permaviss/gauss_mod_p/gauss_mod_p.py:gauss_col_rad"]}
{"id": "C11", "title": "gauss_col_rad completeness", "statement": "If the first start columns that are born by R[j] have pairwise distinct pivots (or are equal when pivots coincide) and column j lies in their span, then gauss_col_rad does not raise; when it raises, some column is not in that span.", "quantifier": "all primes, matrices, radii", "why_tests_cant": "absence of spurious RuntimeErrors over all inputs", "anchors": ["src/permaviss/gauss_mod_p/gauss_mod_p.py:gauss_col_rad"]}
{"id": "C12", "title": "gauss_barcodes expresses columns through alive columns", "statement": "If gauss_barcodes returns coefficients, then for each j >= start, restricted to rows alive at the birth of column j, column j of A equals the combination of columns k < start given by the coefficients mod p, with zero coefficient on every column not alive then; it raises RuntimeError iff for some j no such combination exists.", "quantifier": "all primes, matrices, barcodes and start indices", "why_tests_cant": "all matrices between persistence modules", "anchors": ["src/permaviss/gauss_mod_p/gauss_mod_p.py:gauss_barcodes"]}
{"id": "C13", "title": "Vietoris-Rips simplices are exactly the cliques", "statement": "vietoris_rips(Dist,max_r,max_dim) returns in C[d], for 1 <= d <= max(1,max_dim), every strictly increasing tuple of d+1 vertices whose pairwise distances are all < max_r, each exactly once, and nothing else.", "quantifier": "all distance matrices, radii, dimensions, and all tie-breaking choices of argsort", "why_tests_cant": "all point clouds, dimensions and sort tie-breaks", "anchors": ["src/permaviss/simplicial_complexes/vietoris_rips.py:vietoris_rips", "src/permaviss/simplicial_complexes/vietoris_rips.py:_lower_neighbours"]}
{"id": "C14", "title": "Vietoris-Rips birth radii", "statement": "R[0] is all zeros, R[d] is parallel to C[d], its i-th entry is the maximum pairwise distance among the vertices of the i-th d-simplex, is < max_r, and R[d] is non-decreasing.", "quantifier": "all distance matrices, dimensions, indices", "why_tests_cant": "all point clouds", "anchors": ["src/permaviss/simplicial_complexes/vietoris_rips.py:vietoris_rips"]}
{"id": "C15", "title": "Vietoris-Rips output is a filtered simplicial complex", "statement": "Every facet of a simplex in C[d] (d>=2) appears in C[d-1] with birth radius no larger than the simplex's, and vertices of edges are < C[0].", "quantifier": "all distance matrices, simplices, faces", "why_tests_cant": "closure must hold at every simplex", "anchors": ["src/permaviss/simplicial_complexes/vietoris_rips.py:vietoris_rips"]}
{"id": "C16", "title": "flag_complex enumerates the cliques of the graph", "statement": "For a loop-free duplicate-free graph with edges stored low-high, flag_complex(G,n,max_dim)[d] lists each (d+1)-clique of G exactly once as an increasing tuple, for 1<=d<=max_dim; entry 0 is n; a negative max_dim raises ValueError.", "quantifier": "all graphs and dimensions", "why_tests_cant": "all graphs", "anchors": ["src/permaviss/simplicial_complexes/flag_complex.py:flag_complex"]}
{"id": "C17", "title": "complex_differentials gives signed facets", "statement": "For d>=2 entry (j,i) of D[d] is (-1)^k mod p if simplex j of C[d-1] is simplex i of C[d] with its k-th vertex removed, and 0 otherwise; D[1] has 1 at the lower vertex, p-1 at the upper vertex and 0 elsewhere.", "quantifier": "all complexes with increasing duplicate-free simplices, all dimensions and indices, all p >= 2", "why_tests_cant": "all complexes", "anchors": ["src/permaviss/simplicial_complexes/differentials.py:complex_differentials"]}
{"id": "C18", "title": "the boundary of a boundary vanishes", "statement": "D[d-1]*D[d] = 0 mod p for all d>=2, for every simplicial complex closed under facets.", "quantifier": "all simplicial complexes, dimensions, moduli", "why_tests_cant": "the cancellation of signs must hold for every simplex of every dimension", "anchors": ["src/permaviss/simplicial_complexes/differentials.py:complex_differentials"]}
{"id": "C19", "title": "persistent_homology classes are cycles present at birth", "statement": "Each generator of Hom[d] returned by persistent_homology has coordinates supported on simplices with radius at most its birth, is annihilated mod p by the d-th differential, and its last simplex is born exactly at the birth of the bar.", "quantifier": "all filtered complexes with D.D=0 and sorted radii, all primes", "why_tests_cant": "every complex", "anchors": ["src/permaviss/persistence_algebra/PH_classic.py:persistent_homology"]}
{"id": "C20", "title": "persistent_homology computes homology at every radius", "statement": "For every radius r below max_rad, the generators of Hom[d] alive at r (birth<=r<death) represent a basis of the d-th homology of the subcomplex of simplices born by r: every cycle of the subcomplex is, modulo boundaries of the subcomplex, a unique combination of them.", "quantifier": "all filtered complexes, primes, dimensions and radii r < max_rad", "why_tests_cant": "the central correctness theorem: it quantifies over all complexes and radii", "anchors": ["src/permaviss/persistence_algebra/PH_classic.py:persistent_homology"]}
{"id": "C21", "title": "finite bars die at their death radius", "statement": "If a bar of Hom[d] has death < max_rad then its generator is the boundary of a chain supported on simplices with radius <= death, and it is not a boundary in the subcomplex at any r with birth <= r < death.", "quantifier": "all filtered complexes and bars", "why_tests_cant": "every complex and bar", "anchors": ["src/permaviss/persistence_algebra/PH_classic.py:persistent_homology"]}
{"id": "C22", "title": "Im and PreIm returned by persistent_homology", "statement": "For every d, D[d+1]*PreIm[d+1] = Im[d] coordinates mod p, column by column after sorting; each preimage is supported on simplices born by the birth of its image bar; and the Im[d] bars born by r are a basis of the boundaries of the subcomplex at r.", "quantifier": "all filtered complexes, primes, radii", "why_tests_cant": "every complex", "anchors": ["src/permaviss/persistence_algebra/PH_classic.py:persistent_homology"]}
{"id": "C23", "title": "shape and order of persistent_homology output", "statement": "Hom has one entry per dimension; all returned bars satisfy birth < death <= max_rad; each Hom[d] and Im[d] is sorted in standard (rounded) barcode order; preallocated storage is never exceeded and no exception is raised on a valid filtered complex.", "quantifier": "all filtered complexes", "why_tests_cant": "index-safety and totality over all inputs", "anchors": ["src/permaviss/persistence_algebra/PH_classic.py:persistent_homology"]}
{"id": "C24", "title": "the clearing optimisation is transparent", "statement": "Setting pivot columns to zero before reduction does not change the homology bars: for each cleared column the uncleared reduction would also produce a zero column.", "quantifier": "all filtered complexes with D.D=0", "why_tests_cant": "must hold for every complex", "anchors": ["src/permaviss/persistence_algebra/PH_classic.py:persistent_homology"]}
{"id": "C25", "title": "bar count equals Betti number", "statement": "For every r below max_rad the number of bars of Hom[d] alive at r equals dim ker D[d]|r - rank D[d+1]|r of the subcomplex at r over the field with p elements.", "quantifier": "all filtered complexes, primes, dimensions, radii", "why_tests_cant": "all complexes and radii", "anchors": ["src/permaviss/persistence_algebra/PH_classic.py:persistent_homology"]}
{"id": "C26", "title": "local_persistent_homology is the persistent homology of the Rips filtration", "statement": "For every distance matrix, running vietoris_rips, complex_differentials and persistent_homology in sequence never fails and yields in each dimension below max_dim bars whose generators alive at r form a basis of the simplicial homology of the Rips complex at r.", "quantifier": "all distance matrices with nonnegative entries, max_r > 0, primes, dimensions, radii, tie-breakings", "why_tests_cant": "end-to-end over all point clouds", "anchors": ["src/permaviss/spectral_sequence/MV_spectral_seq.py:local_persistent_homology", "src/permaviss/simplicial_complexes/vietoris_rips.py:vietoris_rips", "src/permaviss/simplicial_complexes/differentials.py:complex_differentials", "src/permaviss/persistence_algebra/PH_classic.py:persistent_homology"]}
{"id": "C27", "title": "the barcode does not depend on sort tie-breaking", "statement": "Two runs of the local pipeline that differ only in how argsort breaks ties return the same multiset of bars in every dimension.", "quantifier": "all distance matrices, all pairs of admissible sort results", "why_tests_cant": "numpy's default sort is not stable; all tie-breaks must agree", "anchors": ["src/permaviss/simplicial_complexes/vietoris_rips.py:vietoris_rips", "src/permaviss/persistence_algebra/PH_classic.py:persistent_homology"]}
{"id": "C28", "title": "barcode_basis constructor keeps exactly the non-trivial bars", "statement": "barcode_basis(bars, prev, coords) has dim = number of bars with birth<death, its barcode is the sublist of those bars in the original order and its coordinates are the matching columns; it raises ValueError when coordinates do not match prev.dim or the number of bars, or a broken basis lacks square differentials of size dim.", "quantifier": "all bars, bases and coordinate matrices", "why_tests_cant": "all inputs incl. error cases", "anchors": ["src/permaviss/persistence_algebra/barcode_bases.py:barcode_basis.__init__"]}
{"id": "C29", "title": "barcode_basis.sort is a stable permutation into standard order", "statement": "sort permutes bars, coordinates columns, and rows+columns of broken differentials by one and the same permutation, which is the one returned; afterwards rounded births are non-decreasing and among equal rounded births rounded deaths are non-increasing; sorting a sorted basis changes nothing. Unrounded births need not be sorted.", "quantifier": "all bases and monotone rounding functions", "why_tests_cant": "all inputs", "anchors": ["src/permaviss/persistence_algebra/barcode_bases.py:barcode_basis.sort"]}
{"id": "C30", "title": "active, birth, death and changes_list", "statement": "active(r) lists in increasing order exactly the indices with birth<=r<death, birth(r)/death(r) exactly those with birth==r/death==r; changes_list is the strictly increasing list of all endpoints; between consecutive changes the active set is constant.", "quantifier": "all bases and radii", "why_tests_cant": "all radii, including between change points", "anchors": ["src/permaviss/persistence_algebra/barcode_bases.py:barcode_basis.active", "src/permaviss/persistence_algebra/barcode_bases.py:barcode_basis.birth", "src/permaviss/persistence_algebra/barcode_bases.py:barcode_basis.death", "src/permaviss/persistence_algebra/barcode_bases.py:barcode_basis.changes_list"]}
{"id": "C31", "title": "update_broken replaces dying generators", "statement": "update_broken(A,r,p) zeroes the rows of generators dying at r and adds, mod p, their broken differentials weighted by the old rows; if nothing dies at r the matrix is returned unchanged.", "quantifier": "all broken bases, matrices, radii", "why_tests_cant": "all inputs", "anchors": ["src/permaviss/persistence_algebra/barcode_bases.py:barcode_basis.update_broken"]}
{"id": "C32", "title": "next_hypercube enumerates the grid", "statement": "Starting from the zero position, k calls of next_hypercube give the mixed-radix digits of min(k, N-1) where N is the product of divisions (all >=1): positions 0..N-1 visit every hypercube exactly once, in index order.", "quantifier": "all dimension counts, divisions and step counts", "why_tests_cant": "the odometer must carry correctly for every grid", "anchors": ["src/permaviss/covers/cubical_cover.py:next_hypercube"]}
{"id": "C33", "title": "nerve edges are exactly the adjacent hypercubes", "statement": "nerve_hypercube_cover(div)[1] contains the pair (i<j) iff the hypercubes i and j differ by at most one in every coordinate, each pair once.", "quantifier": "all grids", "why_tests_cant": "all grid shapes", "anchors": ["src/permaviss/covers/cubical_cover.py:nerve_hypercube_cover"]}
{"id": "C34", "title": "the nerve has dimension below 2^dim", "statement": "nerve_hypercube_cover(div) lists in each level k exactly the sets of k+1 pairwise adjacent hypercubes, and its last entry (level 2^dim) is empty, so no intersection is ever dropped by create_MV_ss which ignores the last level.", "quantifier": "all grids", "why_tests_cant": "all grid shapes and dimensions", "anchors": ["src/permaviss/covers/cubical_cover.py:nerve_hypercube_cover", "src/permaviss/spectral_sequence/MV_spectral_seq.py:create_MV_ss"]}
{"id": "C35", "title": "generate_cover: membership and coverage", "statement": "points_IN[0][i] lists exactly the points inside the closed i-th enlarged hypercube; if the cloud has positive extent in every coordinate, max_div>=1 and overlap>=0 then every point lies in some hypercube. For clouds flat in some coordinate there are no hypercubes at all.", "quantifier": "all point clouds, divisions, overlaps (exact arithmetic)", "why_tests_cant": "all clouds", "anchors": ["src/permaviss/covers/cubical_cover.py:generate_cover", "src/permaviss/covers/cubical_cover.py:corners_hypercube"]}
{"id": "C36", "title": "close points share a hypercube", "statement": "If overlap >= max_r, any set of points of the cloud whose pairwise coordinate differences are < max_r lies in one common hypercube; hence every Rips simplex of the global complex lies in some local complex.", "quantifier": "all clouds, divisions, overlaps >= max_r", "why_tests_cant": "the Mayer-Vietoris hypothesis: every simplex of every cloud", "anchors": ["src/permaviss/covers/cubical_cover.py:generate_cover", "src/permaviss/spectral_sequence/MV_spectral_seq.py:create_MV_ss"]}
{"id": "C37", "title": "intersections are computed exactly", "statement": "For every nerve simplex, nerve_points_IN lists, in increasing order, exactly the points lying in all its hypercubes, and nerve_point_cloud their coordinates.", "quantifier": "all covers and simplices", "why_tests_cant": "all covers", "anchors": ["src/permaviss/covers/cubical_cover.py:intersection_covers", "src/permaviss/covers/cubical_cover.py:generate_cover"]}
{"id": "C38", "title": "pivot_check_reduce terminates with a fresh pivot", "statement": "pivot_check_reduce on a column terminates, only adds multiples of earlier columns (the same in M and T), and returns -1 iff the active part became zero, else an active row not among the previous pivots; on that row the column is nonzero.", "quantifier": "all primes, matrices, active rows and previous pivots that are genuine pivots", "why_tests_cant": "recursion without an explicit measure", "anchors": ["src/permaviss/persistence_algebra/image_kernel.py:pivot_check_reduce"]}
{"id": "C39", "title": "image_kernel: image and kernel bases at each radius", "statement": "For a well-defined persistence morphism F: A->B, the bars of Im (resp. Ker) returned by image_kernel alive at r form a basis of the image (resp. kernel) of F at r, and PreIm maps to Im.", "quantifier": "all barcode bases, morphisms, primes, radii", "why_tests_cant": "published algorithm; correctness over all morphisms", "anchors": ["src/permaviss/persistence_algebra/image_kernel.py:image_kernel"]}
{"id": "C40", "title": "quotient and module_persistence_homology", "statement": "quotient(M,N) has at every radius a basis of M_r/N_r and module_persistence_homology returns bases of ker/im at every position and radius.", "quantifier": "all chain complexes of persistence modules", "why_tests_cant": "all chains; (known violation when the codomain basis is empty)", "anchors": ["src/permaviss/persistence_algebra/module_persistence_homology.py:quotient", "src/permaviss/persistence_algebra/module_persistence_homology.py:module_persistence_homology"]}
{"id": "C41", "title": "local_chains addition", "statement": "For chains with increasing references, A+B has as references the sorted union and its value at every reference is the sum of the two values; the two operands are unchanged. With unsorted references rows are attributed to wrong references.", "quantifier": "all local chains", "why_tests_cant": "all reference patterns", "anchors": ["src/permaviss/spectral_sequence/local_chains_class.py:local_chains.__add__"]}
{"id": "C42", "title": "local_chains sums, minus, add_entry, copy_seq", "statement": "sums(chains,M) has value M*value at each local index and is linear; minus negates mod p; add_entry rejects mismatched lengths; copy_seq equals its argument.", "quantifier": "all chains and coefficient matrices", "why_tests_cant": "all inputs", "anchors": ["src/permaviss/spectral_sequence/local_chains_class.py:local_chains.sums", "src/permaviss/spectral_sequence/local_chains_class.py:local_chains.minus", "src/permaviss/spectral_sequence/local_chains_class.py:local_chains.add_entry", "src/permaviss/spectral_sequence/local_chains_class.py:local_chains.copy_seq"]}
{"id": "C43", "title": "Cech differential squares to zero", "statement": "Applying the Cech differential twice to any chains gives zero mod p.", "quantifier": "all covers, degrees, chains", "why_tests_cant": "test_double_complex samples a single cloud", "anchors": ["src/permaviss/spectral_sequence/spectral_sequence_class.py:cech_diff", "src/permaviss/spectral_sequence/spectral_sequence_class.py:cech_diff_local", "src/permaviss/spectral_sequence/spectral_sequence_class.py:local_cech_matrix"]}
{"id": "C44", "title": "Cech and vertical differentials anticommute", "statement": "For every cover, vertical boundary of the Cech image plus Cech image of the vertical boundary is zero mod p.", "quantifier": "all covers, degrees, chains", "why_tests_cant": "must hold for every cover", "anchors": ["src/permaviss/spectral_sequence/spectral_sequence_class.py:local_cech_matrix", "src/permaviss/spectral_sequence/spectral_sequence_class.py:cech_diff_local"]}
{"id": "C45", "title": "first_page_local_lift decomposition", "statement": "first_page_local_lift returns (gammas,betas) with local chain = Im*gammas + Hom*betas mod p using only classes born by the lift radius, and it does not raise when the chain is a cycle of the local complex at that radius.", "quantifier": "all local complexes, cycles, radii", "why_tests_cant": "all chains", "anchors": ["src/permaviss/spectral_sequence/spectral_sequence_class.py:first_page_local_lift"]}
{"id": "C46", "title": "cech_diff_and_lift_local zig-zag", "statement": "For each generator, Cech image + vertical boundary of the lift equals the combination of local homology classes given by betas mod p. Fails for covers with no homology in the degree, where the code returns no lift.", "quantifier": "all covers and chains", "why_tests_cant": "zig-zag commutativity is tested on one cloud only", "anchors": ["src/permaviss/spectral_sequence/spectral_sequence_class.py:cech_diff_and_lift_local"]}
{"id": "C47", "title": "first page bookkeeping", "statement": "After add_output_first, cycle_dimensions are cumulative sums with a trailing 0, page_dim_matrix[1] holds their totals, the windows [prev,next) partition the first page and first_page_barcodes is the concatenation of the local barcodes.", "quantifier": "all outputs of the local computations", "why_tests_cant": "all cover sizes", "anchors": ["src/permaviss/spectral_sequence/spectral_sequence_class.py:add_output_first"]}
{"id": "C48", "title": "take_sample selects distinct points greedily", "statement": "take_sample returns min(n, k) points (k>=1) with pairwise distinct indices whatever the random start, each new point maximising the distance to those already taken.", "quantifier": "all distance matrices, sample sizes, random draws", "why_tests_cant": "all random starts, including the wrap-around start -1", "anchors": ["src/permaviss/sample_point_clouds/examples.py:take_sample"]}
{"id": "C49", "title": "example point clouds lie on the advertised sets", "statement": "circle, random_circle, ball, random_cube, grid, grid_tridimensional, torus3D return the requested number of points lying on / in the documented set; random_sphere ignores radius and returns unit vectors.", "quantifier": "all parameters and all random draws", "why_tests_cant": "all random draws", "anchors": ["src/permaviss/sample_point_clouds/examples.py:circle", "src/permaviss/sample_point_clouds/examples.py:random_circle", "src/permaviss/sample_point_clouds/examples.py:ball", "src/permaviss/sample_point_clouds/examples.py:random_sphere", "src/permaviss/sample_point_clouds/examples.py:random_cube", "src/permaviss/sample_point_clouds/examples.py:grid", "src/permaviss/sample_point_clouds/examples.py:grid_tridimensional", "src/permaviss/sample_point_clouds/examples.py:torus3D"]}
{"id": "C50", "title": "bars count persistent Betti numbers", "statement": "For all r <= s < max_rad the number of bars of Hom[d] born by r and alive after s equals dim Z_d(r) - dim(Z_d(r) intersected with B_d(s)), the rank of the map H_d(r) -> H_d(s) induced by inclusion.", "quantifier": "all filtered complexes, primes, dimensions, pairs of radii", "why_tests_cant": "it relates the whole barcode to ranks of maps between infinitely many pairs of subcomplexes of arbitrary inputs", "anchors": ["src/permaviss/persistence_algebra/PH_classic.py:persistent_homology"]}
{"id": "C51", "title": "the nerve sees every intersection", "statement": "If the overlap is smaller than the side of the hypercubes (overlap * max_div < longest extent), every set of hypercubes sharing a point of the cloud is a simplex of the nerve; when overlap >= side this fails (refuted by a witness).", "quantifier": "all clouds, divisions, overlaps", "why_tests_cant": "all clouds and all sets of hypercubes", "anchors": ["src/permaviss/covers/cubical_cover.py:generate_cover", "src/permaviss/covers/cubical_cover.py:nerve_hypercube_cover"]}
{"id": "C53", "title": "the first differential is induced by the Cech differential", "statement": "first_differential never raises when every simplex of the nerve has a coface; row g of the returned matrix holds the coordinates, in local homology at the birth radius of class g, of the Cech image of the representative of g, and uses only classes born by then.", "quantifier": "all covered point clouds, nerve dimensions, degrees, primes", "why_tests_cant": "all covers and all Rips filtrations; tests only look at final barcodes", "anchors": ["src/permaviss/spectral_sequence/spectral_sequence_class.py:first_differential", "src/permaviss/spectral_sequence/spectral_sequence_class.py:cech_diff_and_lift"]}
{"id": "C54", "title": "first_page_lift splits local cycles into a boundary and a combination of classes", "statement": "For chains which are local cycles at their radii, first_page_lift never raises; over every simplex of the nerve each chain is, mod p, the vertical boundary of its lift plus the combination of local homology representatives given by its row of Betas_1_page; the lift consists of simplices present at the radius and only classes born by then are used.", "quantifier": "all covered point clouds, families of local cycles and radii below max_r, degrees, primes", "why_tests_cant": "tests only look at final barcodes; the statement ranges over all chains", "anchors": ["src/permaviss/spectral_sequence/spectral_sequence_class.py:first_page_lift", "src/permaviss/spectral_sequence/spectral_sequence_class.py:first_page_local_lift"]}
{"id": "C55", "title": "create_MV_ss computes the barcodes of the Rips filtration", "statement": "For every point cloud, with overlap above max_r, create_MV_ss returns and the i-th entry of persistent_homology is the barcode of the i-th persistent homology of the Rips filtration up to max_r. Refuted by four clouds: a wrong number of bars, entries shifted by one degree, a ValueError and a RuntimeError.", "quantifier": "all point clouds, max_r, max_dim, divisions, overlaps, primes", "why_tests_cant": "tests compare the bars of a few random clouds; the statement ranges over all of them", "anchors": ["src/permaviss/spectral_sequence/MV_spectral_seq.py:create_MV_ss", "src/permaviss/spectral_sequence/spectral_sequence_class.py:cech_diff_and_lift", "src/permaviss/spectral_sequence/spectral_sequence_class.py:compute_two_page_representatives"]}
{"id": "C52", "title": "generate_cover returns a valid input of the spectral sequence", "statement": "For every rectangular cloud which is not a single point, the cover and nerve returned by generate_cover are such that: the nerve is a simplicial complex, the lists over its simplices are the intersections of the lists over its vertices, every simplex below the top dimension has a coface, and any two hypercubes sharing a point are joined by edges of the nerve through hypercubes containing that point. If near points differ by at most the overlap in each coordinate, every simplex of the Rips complex lies in one hypercube.", "quantifier": "all clouds with at least two values in some coordinate (all coordinates for the last clause), divisions, overlaps", "why_tests_cant": "all clouds and dimensions; tests look at a few covers", "anchors": ["src/permaviss/covers/cubical_cover.py:generate_cover"]}
{"id": "C56", "title": "the second page is the homology of the Cech complex of local homologies", "statement": "Whenever the spectral sequence ends without raising, the bars at every place (n, d) of the second page are the barcode of: families of local d-cycles over the n-simplices of the nerve whose Cech differential bounds, modulo families homologous to the Cech differential of a family of cycles over the (n+1)-simplices. If there are classes over the (n+1)-simplices but none over the n-simplices in the same degree it raises.", "quantifier": "all covered point clouds with pure nerve, in particular all clouds with the cover of generate_cover; degrees, primes", "why_tests_cant": "tests only compare final bars of a few random clouds", "anchors": ["src/permaviss/spectral_sequence/MV_spectral_seq.py:create_MV_ss", "src/permaviss/spectral_sequence/spectral_sequence_class.py:first_differential", "src/permaviss/persistence_algebra/module_persistence_homology.py:module_persistence_homology"]}
{"id": "C57", "title": "the degree 0 bars of create_MV_ss are correct", "statement": "Whenever create_MV_ss ends without raising, on a cloud with at least two values in each coordinate and with points below max_r differing by at most the overlap in each coordinate, persistent_homology[0] is the degree 0 barcode of the Rips filtration. If some coordinate is constant (and another is not) it has no bars.", "quantifier": "all point clouds, distances, divisions, overlaps, primes", "why_tests_cant": "tests compare the bars of a few random clouds", "anchors": ["src/permaviss/spectral_sequence/MV_spectral_seq.py:create_MV_ss", "src/permaviss/covers/cubical_cover.py:generate_cover"]}
{"id": "C58", "title": "the extension step returns the barcode of the extended module", "statement": "Given the bars of a diagonal and an extension matrix whose columns say as what combination of generators a generator goes on after its death, the last step of create_MV_ss ends and returns the barcode of the module with one generator per bar and one relation per death, if generators which continue others are not continued themselves and are born in time.", "quantifier": "all nonempty lists of bars below max_r, all such matrices, all primes; in particular all diagonals of a two-column spectral sequence", "why_tests_cant": "all matrices and all orders of births and deaths; the tests reach the broken barcode bases only through a few random clouds", "anchors": ["src/permaviss/spectral_sequence/MV_spectral_seq.py:create_MV_ss", "src/permaviss/persistence_algebra/image_kernel.py:image_kernel", "src/permaviss/persistence_algebra/barcode_bases.py:update_broken"]}
{"id": "C59", "title": "create_MV_ss is right in every degree if no three cover elements meet", "statement": "Whenever create_MV_ss ends without raising, on a cloud long enough in one direction that the others are not divided, with an overlap below the side of the hypercubes and points below max_r differing by at most the overlap in each coordinate, the bars returned in each degree below max_dim (none, if the degree is left out) are the barcode of the Rips filtration. It may raise.", "quantifier": "all such clouds, distances, divisions, overlaps, primes; all covers of which no three elements meet", "why_tests_cant": "tests compare the bars of a few random clouds; the extension problem is only non-trivial when classes of an intersection die before they close", "anchors": ["src/permaviss/spectral_sequence/MV_spectral_seq.py:create_MV_ss", "src/permaviss/spectral_sequence/spectral_sequence_class.py:extension", "src/permaviss/spectral_sequence/spectral_sequence_class.py:first_page_lift"]}
{"id": "C60", "title": "create_MV_ss returns a right result if, besides, the intersections are acyclic", "statement": "On a cloud with at least two coordinates, long enough in one direction that the others are not divided, with an overlap below the side of the hypercubes and points below max_r differing by at most the overlap in each coordinate: if the Rips complexes of the points within overlap/2 of each wall between hypercubes have no homology in positive degrees below max_dim at radii below max_r, then create_MV_ss ends without raising and the bars returned in each degree below max_dim (none, if the degree is left out) are the barcode of the Rips filtration.", "quantifier": "all such clouds, distances, divisions, overlaps, primes; all covers of which no three elements meet and whose intersections are acyclic", "why_tests_cant": "tests run a few random clouds; whether an exception is raised depends on which classes die before they close", "anchors": ["src/permaviss/spectral_sequence/MV_spectral_seq.py:create_MV_ss", "src/permaviss/spectral_sequence/spectral_sequence_class.py:extension", "src/permaviss/spectral_sequence/spectral_sequence_class.py:lift_to_page"]}
{"id": "C61", "title": "Covers with acyclic intersections: the spectral sequence is the persistent homology of the nerve", "statement": "Let every element of the cover and every intersection of elements have no homology in positive degrees below max_dim at radii below max_r, let elements with a common point span a simplex of the nerve, and let every simplex of the cloud lie in an element of the cover.  If mv_ss returns, its second page has bars in the row 0 only, and the bars at the place (n, 0), for 0 < n < max_dim, are the barcode of the Rips filtration in degree n; in degrees which the nerve does not reach the Rips filtration has no bars.", "quantifier": "all covers of all shapes, distances, primes; all clouds for create_MV_ss whose overlap is below the side of the hypercubes", "why_tests_cant": "tests compare the final bars on a few clouds; the nerve theorem quantifies over covers with intersections of any order", "anchors": ["src/permaviss/spectral_sequence/MV_spectral_seq.py:create_MV_ss", "src/permaviss/spectral_sequence/spectral_sequence_class.py:first_differential", "src/permaviss/covers/cubical_cover.py:generate_cover"]}
{"id": "C62", "title": "Covers with acyclic intersections: the result of mv_ss", "statement": "Under the conditions of C61, mv_ss returns, and its result is the Rips barcode in every degree below max_dim.", "quantifier": "all covers, distances, primes", "why_tests_cant": "no test has a class of degree 2 which is born in an intersection of three elements and dies before max_r", "anchors": ["src/permaviss/persistence_algebra/module_persistence_homology.py", "src/permaviss/spectral_sequence/MV_spectral_seq.py", "src/permaviss/spectral_sequence/spectral_sequence_class.py"]}
{"id": "C63", "title": "Total complex representatives of the classes of the pages", "statement": "If mv_ss (create_MV_ss) returns, then for every page, column n and row deg where representatives are kept: there are min(n, page) + 1 families of chains, the i-th over dimension n - i of the nerve and in degree deg + i; the first family consists of local cycles; and over every simplex of the nerve the vertical boundary of each family and the Cech image of the one before add up to zero; representatives of classes are not zero.", "quantifier": "all covers of all shapes, distances, radii, primes; all pages and places", "why_tests_cant": "test_zig_zags checks the sum on a few random clouds; simplices of the nerve without classes in the degree, and classes of the third page over a zero module, do not occur there", "anchors": ["src/permaviss/spectral_sequence/spectral_sequence_class.py:compute_two_page_representatives", "src/permaviss/spectral_sequence/spectral_sequence_class.py:compute_higher_representatives", "src/permaviss/spectral_sequence/spectral_sequence_class.py:cech_diff_and_lift", "test/spectral_sequence/test_zig_zags.py"]}
{"id": "C64", "title": "bars on another scale", "statement": "If the distances and max_r are changed by a function f which is increasing on the non-negative numbers with f(0) = 0 (a factor, squares), then vietoris_rips, complex_differentials and persistent_homology return, in every degree below max_dim, the bars (f(b), f(d)) for the bars (b, d) of the original data, up to their order; whatever the sorting and rounding.", "quantifier": "all distance matrices, radii, primes, degrees; all increasing changes of the scale", "why_tests_cant": "tests compare a few fixed clouds with fixed barcodes; the relation is between two runs on arbitrary data", "anchors": ["src/permaviss/simplicial_complexes/vietoris_rips.py:vietoris_rips", "src/permaviss/persistence_algebra/PH_classic.py:persistent_homology", "src/permaviss/spectral_sequence/MV_spectral_seq.py:local_persistent_homology"]}
{"id": "C65", "title": "bars up to a smaller radius", "statement": "With a smaller max_r the same computation returns the bars born before it, ended at the new max_r at the latest, up to their order.", "quantifier": "all distance matrices, pairs of radii, primes, degrees", "why_tests_cant": "the truncation of the complex at max_r and the treatment of infinite bars interact; tests use one radius per cloud", "anchors": ["src/permaviss/simplicial_complexes/vietoris_rips.py:vietoris_rips", "src/permaviss/persistence_algebra/PH_classic.py:persistent_homology", "src/permaviss/spectral_sequence/MV_spectral_seq.py:local_persistent_homology"]}
{"id": "C66", "title": "bars do not depend on the order of the points", "statement": "If the points are permuted (the distance matrix by the same permutation of rows and columns, and it is symmetric), the same computation returns the same bars in every degree below max_dim, up to their order.", "quantifier": "all symmetric distance matrices, permutations, radii, primes, degrees", "why_tests_cant": "there are n! orders; orientation signs and the order of the columns change with each", "anchors": ["src/permaviss/simplicial_complexes/vietoris_rips.py:vietoris_rips", "src/permaviss/simplicial_complexes/differentials.py:complex_differentials", "src/permaviss/persistence_algebra/PH_classic.py:persistent_homology", "src/permaviss/spectral_sequence/MV_spectral_seq.py:local_persistent_homology"]}
{"id": "C67", "title": "repeated points do not change the bars", "statement": "If some points occur several times (distance 0 to each other, the same distances to all others; symmetric distances, zero diagonal), in any order, the same computation returns the same bars in every degree below max_dim as without repetition, up to their order.", "quantifier": "all symmetric distance matrices with zero diagonal, all lists of points in which every point occurs, radii, primes, degrees", "why_tests_cant": "random clouds have no repeated points; edges born at 0 together with the vertices are the degenerate case", "anchors": ["src/permaviss/simplicial_complexes/vietoris_rips.py:vietoris_rips", "src/permaviss/persistence_algebra/PH_classic.py:persistent_homology", "src/permaviss/spectral_sequence/MV_spectral_seq.py:local_persistent_homology"]}
{"id": "C68", "title": "the result of create_MV_ss does not depend on the cover", "statement": "Two calls of create_MV_ss with the same distances, largest radius and prime, whatever the division, the overlap (at least the distances below max_r), the coordinates, the sort and the rounding, return the same bars of degree 0 up to their order, namely those of the local computation on the whole cloud. If in each call the cloud is divided in one direction only or all intersections of the cover are acyclic, the same holds in every degree below max_dim.", "quantifier": "all clouds thick in every direction, divisions, overlaps, radii, primes, degrees", "why_tests_cant": "the tests compare one cover with one reference; independence of the cover is a statement about pairs of calls", "anchors": ["src/permaviss/spectral_sequence/MV_spectral_seq.py:create_MV_ss", "src/permaviss/covers/cubical_cover.py:generate_cover"]}
{"id": "C69", "title": "create_MV_ss on another scale, up to a smaller radius, in another order and with repeated points", "statement": "Under the conditions of C68, if the distances of the second call are those of the first on another scale, up to a smaller radius, for another order of the points or with repeated points, then the bars of the second call are those of the first on the new scale, cut off at the smaller radius, or the same ones, up to their order.", "quantifier": "all pairs of clouds with related distances, divisions, overlaps, radii, primes, degrees", "why_tests_cant": "the covers of the two clouds are unrelated, so no step of the two computations can be compared directly", "anchors": ["src/permaviss/spectral_sequence/MV_spectral_seq.py:create_MV_ss"]}
{"id": "C70", "title": "bars of degree 0 count connected components", "statement": "For nonnegative distances, every bar of degree 0 returned by the local computation is born at 0, and for every radius s below max_r the number of bars living beyond s is the number of connected components of the points, where points at distance at most s are joined. The same holds for create_MV_ss on a cover, under the conditions of C68.", "quantifier": "all distance matrices, radii, primes; all clouds thick in every direction, divisions, overlaps", "why_tests_cant": "the tests compare with stored bars of sampled clouds; the count is an independent meaning for every cloud and every radius", "anchors": ["src/permaviss/simplicial_complexes/vietoris_rips.py:vietoris_rips", "src/permaviss/persistence_algebra/PH_classic.py:persistent_homology", "src/permaviss/spectral_sequence/MV_spectral_seq.py:local_persistent_homology", "src/permaviss/spectral_sequence/MV_spectral_seq.py:create_MV_ss"]}
{"id": "C71", "title": "bars of degree 0 do not depend on the prime", "statement": "Computations with the same distances and largest radius modulo two primes return the same bars of degree 0, up to their order, both for the local computation and for create_MV_ss under the conditions of C68. (In degree 1 the bars can differ: an eleven-vertex triangulation of the projective plane modulo 2 and 3.)", "quantifier": "all distance matrices, radii, pairs of primes; all clouds thick in every direction, divisions, overlaps", "why_tests_cant": "tests run with one prime; the computations modulo different primes share no intermediate value", "anchors": ["src/permaviss/persistence_algebra/PH_classic.py:persistent_homology", "src/permaviss/gauss_mod_p/gauss_mod_p.py:gauss_col", "src/permaviss/spectral_sequence/MV_spectral_seq.py:local_persistent_homology", "src/permaviss/spectral_sequence/MV_spectral_seq.py:create_MV_ss"]}
{"id": "C72", "title": "bars begin and end at distances", "statement": "For nonnegative distances, every bar returned by the local computation in a degree below max_dim begins and ends at 0, at a distance between two points or at max_r. The same holds for the bars of create_MV_ss, under the conditions of C68 (in degree 0, and in all degrees below max_dim if the cloud is divided in one direction only or all intersections are acyclic).", "quantifier": "all distance matrices, radii, primes, degrees; all clouds thick in every direction, divisions, overlaps", "why_tests_cant": "bars pass through image and kernel computations and the extension problem, each of which sorts and compares radii; tests compare values within a tolerance", "anchors": ["src/permaviss/simplicial_complexes/vietoris_rips.py:vietoris_rips", "src/permaviss/persistence_algebra/PH_classic.py:persistent_homology", "src/permaviss/spectral_sequence/MV_spectral_seq.py:local_persistent_homology", "src/permaviss/spectral_sequence/MV_spectral_seq.py:create_MV_ss"]}
{"id": "C73", "title": "bars end by the radius of the cloud", "statement": "If all points are within distance e < max_r of one of them, then the local computation returns in degree 0 exactly one bar which ends after e, namely (0, max_r), and in positive degrees none. For create_MV_ss the same holds in degree 0, under the conditions of C68.", "quantifier": "all distance matrices, centres, radii, primes, degrees; all clouds thick in every direction, divisions, overlaps", "why_tests_cant": "random clouds are computed up to a radius far below that of the cloud, so that no test sees all bars end", "anchors": ["src/permaviss/simplicial_complexes/vietoris_rips.py:vietoris_rips", "src/permaviss/persistence_algebra/PH_classic.py:persistent_homology", "src/permaviss/spectral_sequence/MV_spectral_seq.py:local_persistent_homology", "src/permaviss/spectral_sequence/MV_spectral_seq.py:create_MV_ss"]}
{"id": "C74", "title": "cells, classes and images are counted together", "statement": "At every radius below max_rad, the number of cells of a degree that are present equals the number of homology bars of that degree alive, plus the number of image bars of that degree born, plus the number of image bars of the degree below born. Hence the alternating sum of the numbers of cells (the Euler characteristic) is the alternating sum of the numbers of living homology bars. For the local computation on a distance matrix, the cells are the simplices of the Rips complex up to dimension max_dim.", "quantifier": "all filtered complexes, distance matrices, radii, primes", "why_tests_cant": "tests compare few barcodes with stored values; no test relates the number of bars to the number of cells at each radius", "anchors": ["src/permaviss/persistence_algebra/PH_classic.py:persistent_homology", "src/permaviss/simplicial_complexes/vietoris_rips.py:vietoris_rips"]}
{"id": "C75", "title": "bars are stable", "statement": "If the points of two clouds (symmetric distances, zeros on the diagonal) can be paired, each point at least once, so that the distances between partners, cut off at max_r, differ by at most e, then for all r + e <= s - e, s < max_r, at most as many bars of one contain [r, s] as bars of the other contain [r + e, s - e]. In particular every bar (b, d) of one longer than 2e has a bar of the other born by b + e and living up to d - e. In degree 0 as many bars at most live beyond s as bars of the other live beyond s - e. This holds for the local computation in every degree below max_dim, and for create_MV_ss under the conditions of C68.", "quantifier": "all pairs of distance matrices and pairings, radii, primes, degrees; all clouds, divisions and overlaps as in C68", "why_tests_cant": "a small change of the distances changes the order of the simplices and with it every reduction; tests compute with fixed distances", "anchors": ["src/permaviss/simplicial_complexes/vietoris_rips.py:vietoris_rips", "src/permaviss/persistence_algebra/PH_classic.py:persistent_homology", "src/permaviss/spectral_sequence/MV_spectral_seq.py:create_MV_ss"]}
{"id": "C76", "title": "bars of samples", "statement": "If distances satisfy the triangle inequality and every point of a cloud is within e of a sample, then the bars of the sample and of the cloud are related as in C75 with 2e in place of e. For the points returned by take_sample (at least two), e can be the distance of the last point to any of the others.", "quantifier": "all metric clouds, samples, numbers of samples, random draws, radii, primes, degrees", "why_tests_cant": "take_sample is random, and no test compares the bars of a sample with those of the cloud", "anchors": ["src/permaviss/sample_point_clouds/examples.py:take_sample", "src/permaviss/persistence_algebra/PH_classic.py:persistent_homology"]}
{"id": "C77", "title": "bars can be matched (bottleneck stability)", "statement": "Under the conditions of C75, the bars of the two clouds can be matched one to one so that partners differ by at most e at birth and at death, and bars without a partner are not longer than 2e: the bottleneck distance of the two barcodes is at most e. For a sample within e of every point of a metric cloud, in particular for the points returned by take_sample as in C76, the same holds with 2e. This holds for the local computation in every degree below max_dim, and for create_MV_ss under the conditions of C68.", "quantifier": "all pairs of distance matrices and pairings, radii, primes, degrees; all clouds, divisions and overlaps as in C68; all metric clouds and samples", "why_tests_cant": "the matching exists for every pair of near clouds but the computation never constructs it, and a small change of the distances changes the order of the simplices and all the matrices that are reduced", "anchors": ["src/permaviss/persistence_algebra/PH_classic.py:persistent_homology", "src/permaviss/spectral_sequence/MV_spectral_seq.py:create_MV_ss", "src/permaviss/sample_point_clouds/examples.py:take_sample"]}
{"id": "C78", "title": "parts far from each other are computed independently", "statement": "If the points of a cloud with symmetric distances can be put into an order in which they are the points of two clouds, points of different clouds having a distance of at least max_r, then in every degree the bars of the cloud are those of the two clouds together, up to order. This holds for the local computation in every degree below max_dim, and for create_MV_ss on the whole cloud in degree 0 and, under the conditions of C68, in every degree below max_dim. For the local computation the same holds for any number of parts.", "quantifier": "all distance matrices, orders of the points, radii, primes, degrees; all divisions and overlaps as in C68", "why_tests_cant": "each test runs one cloud; that the reduction of one large complex yields exactly the union of the bars of its parts, for every cover that cuts through the parts, involves infinitely many clouds and covers", "anchors": ["src/permaviss/persistence_algebra/PH_classic.py:persistent_homology", "src/permaviss/spectral_sequence/MV_spectral_seq.py:create_MV_ss", "src/permaviss/simplicial_complexes/vietoris_rips.py:vietoris_rips"]}
{"id": "C79", "title": "additions modulo a number return Python's remainder", "statement": "For every non-zero c, add_mod_c(a, b, c) is the one number that differs from a + b by a multiple of c, is nearer to zero than c and does not have the sign opposite to c. These additions are commutative and associative and a, -a add up to 0. add_arrays_mod_c keeps the length of two arrays of equal length and does the same in every entry.", "quantifier": "all integers a, b, all non-zero c, all arrays of equal length", "why_tests_cant": "tests try a few small non-negative numbers; the sign of the remainder for negative sums and for negative c, and the group laws, concern infinitely many integers", "anchors": ["src/permaviss/gauss_mod_p/arithmetic_mod_p.py:add_mod_c", "src/permaviss/gauss_mod_p/arithmetic_mod_p.py:add_arrays_mod_c"]}
