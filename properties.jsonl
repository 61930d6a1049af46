{"id": "C01", "title": "HIL string literals denote exactly the text the manual says they do", "statement": "Executing `v = {t}` in the HIL interpreter stores in `v` exactly the string obtained by the documented rule: matched braces are kept literally, `\\{`, `\\}` and `\\\\` stand for a single `{`, `}`, `\\`. In particular every string whatsoever (of characters other than NUL) can be written as a literal by escaping each brace and backslash, and reading that literal back gives the original string and consumes exactly the literal's text.", "quantifier": "every string of characters, and every text that follows the literal", "why_tests_cant": "there are infinitely many strings and nesting depths; the nesting counter and the backslash flag interact", "anchors": ["src/Interpreter.cpp: Interpreter::_eval (string literals)", "doc/hil.dox: literals"]}
{"id": "C02", "title": "HIL operator precedence and left-associativity", "statement": "For every expression or program built from integer, float and string literals, variables, unary and binary operators, parentheses, assignments and statement separators, evaluating its text (written with parentheses only where the documented precedence table requires them, with any amount of blank space) gives the value, variables and output of the expression tree under the manual's table: lower level binds tighter, equal levels associate to the left, unary operators bind tightest. A type error is reported as a HIL exception (refused assignments and `abs` of a string: as another exception), and undefined integer arithmetic in the tree is undefined in the interpreter.", "quantifier": "every expression tree, every assignment of values to variables", "why_tests_cant": "precedence climbing is recursive and interacts with operator-name prefixes (`=`/`==`, `<`/`<=`); the expression space is infinite", "anchors": ["src/Interpreter.cpp: Interpreter::_eval, _bin_ops, _un_ops", "doc/hil.dox: Operators"]}
{"id": "C03", "title": "HIL macro substitution and conditionals", "statement": "`$e` followed by blanks and any program text z behaves exactly (also as to running forever) like the program text `value(e)` followed by z, run after e's side effects; the blanks are dropped, so the manual's rule without that proviso is false (hil_macro_blanks_refuted). Consequently `$$e` runs the text in the variable named by e, and the documented conditional idiom `$$({case} + (p != 0))` runs the text stored in case1 if p is nonzero and the text stored in case0 otherwise, followed by the remaining program.", "quantifier": "every macro text, every remaining program text, every variable state", "why_tests_cant": "macro text is arbitrary program text; the property is about all continuations", "anchors": ["src/Interpreter.cpp: Interpreter::_substitute, Interpreter::_eval", "doc/hil.dox: Macros, Conditionals"]}
{"id": "C04", "title": "HIL variables keep their type and only successful assignments change them", "statement": "Over any history of assignments and creations in a namespace, every name has at most one type; the type of an existing name never changes; assigning an int to a float variable stores the converted value and leaves the variable a float; every other cross-type assignment (and any write to a Heisenberg variable) is rejected and leaves every variable as it was; reading back a name after a successful assignment gives the assigned value and no other name is affected.", "quantifier": "every sequence of create/assign operations on a namespace with any names, types and values", "why_tests_cant": "needs induction over the operation history", "anchors": ["include/Namespace.hpp: Namespace::create, assign, lookup, exists"]}
{"id": "C05", "title": "Name lookup through super-namespaces agrees with existence", "statement": "For a namespace whose super-namespaces are searched in order, `exists_recursive(name)` is true exactly when some lookup of `name` can succeed, and `lookup` returns the value from the namespace itself if it is defined there and otherwise from the first super-namespace (recursively) where it exists.", "quantifier": "every finite hierarchy of namespaces and every name", "why_tests_cant": "hierarchies of any depth and branching; the all-of/any-of distinction is invisible with a single super-namespace", "anchors": ["include/Namespace.hpp: Namespace::exists_recursive, lookup", "src/Interpreter.cpp: Interpreter::make_sub"]}
{"id": "C06", "title": "A newline or `;` ends a HIL statement", "statement": "Outside string literals a newline or `;` ends the statement: executing `s1;s2` leaves the variables as executing `s1` and then separately `s2`, for any two complete statements s1 and s2.", "quantifier": "every pair of statements", "why_tests_cant": "depends on what the second statement starts with, which tests sample only with names and literals", "anchors": ["src/Interpreter.cpp: Interpreter::_eval", "doc/hil.dox: Operators (Notes)"]}
{"id": "C07", "title": "Evaluating HIL text never reads past the end of the program text", "statement": "Whatever program text is executed, the interpreter never inspects or removes a character from an empty text buffer: it either finishes, reports an exception, or keeps running. This includes programs that evaluate `exit`.", "quantifier": "every program text and every variable state", "why_tests_cant": "all inputs including malformed ones; out-of-bounds reads in a std::list are silent", "anchors": ["src/Interpreter.cpp: _more, _pop, _skip_spaces, _char_is, _eval, the `exit` variable"]}
{"id": "C08", "title": "Tree point location", "statement": "For every tree obtained from a root by any history of refine/unrefine calls, the leaves tile the root's box: `find_leaf` of a point given by integer coordinates at any refinement level returns a leaf whose box contains the point (half-open boxes, the closed side chosen per dimension by the documented bias), it is the only such leaf, and for points outside it returns null; `find_leaf` of a physical position returns a leaf whose closed box contains it, null exactly for positions outside the closed root box.", "quantifier": "every refinement history, every dimensionality 1-3, every query point and search level", "why_tests_cant": "unbounded depth and arbitrary refinement patterns; boundary points between cells", "anchors": ["src/Tree.cpp: Tree::find_leaf, refine, unrefine", "include/Tree.hpp"]}
{"id": "C09", "title": "Tree neighbours", "statement": "`find_neighbor(direction)` of a leaf returns the leaf that covers the adjacent same-size cell in that direction (the tie-breaking being the documented one), null exactly when that cell is outside the root; `find_neighbors` in a face direction returns exactly the leaves whose boxes share a face of positive area with the given leaf across the given face, each once.", "quantifier": "every tree, every leaf and every direction", "why_tests_cant": "arbitrary level differences between neighbours; recursion over unbounded depth", "anchors": ["src/Tree.cpp: Tree::find_neighbor, find_neighbors, _add_extremal_leves"]}
{"id": "C10", "title": "Tree bookkeeping", "statement": "For any history of refine/unrefine: each node's children have refinement level one greater and coordinates 2*coord+bit in row-major order; `count` equals the number of nodes; refine followed by unrefine of a leaf restores the tree; refining a non-leaf is reported as an exception and unrefining a leaf changes nothing; boxes of children partition the parent's box.", "quantifier": "every operation history, n_dim in 1..3", "why_tests_cant": "needs induction over histories and over trees of unbounded depth", "anchors": ["src/Tree.cpp: Tree::refine, unrefine, count, coordinates, nominal_position, nominal_size"]}
{"id": "C11", "title": "Flood fill labels exactly the connected region", "statement": "Calling `flood_fill(status)` on a leaf gives that status to every leaf reachable from it through face-adjacent leaves that are unprocessed, and changes the status of no other node; it terminates on every tree.", "quantifier": "every tree, every initial assignment of statuses, every starting leaf", "why_tests_cant": "arbitrary topology of the region; requires reachability reasoning", "anchors": ["src/Tree.cpp: Tree::flood_fill", "include/Tree.hpp"]}
{"id": "C12", "title": "Tree file round trip", "statement": "Writing a tree to the table stored in a mesh file and reading it back rebuilds a tree of identical shape with identical flood-fill status at every node and the same element reference at every node that had one.", "quantifier": "every tree of every shape", "why_tests_cant": "round trip over an infinite set of trees", "anchors": ["src/Tree.cpp: Tree::write / constructor from file data", "src/Accessible_mesh.cpp: Accessible_mesh::write, read constructor"]}
{"id": "C13", "title": "Mutual pointers stay mutual", "statement": "Over any history of constructing, pairing, unpairing, moving and destroying mutual pointers, whenever pointer a reports partner b, b is alive and reports partner a; no operation touches a destroyed pointer; a destroyed or moved-from pointer is nobody's partner (unless it was paired with itself, which requires both types to be the same); pairing two pointers leaves each previous partner unpaired and affects no others; dereferencing gives the partner's data.", "quantifier": "every operation history on any number of pointers", "why_tests_cant": "aliasing bugs show up only in particular interleavings of re-pairing, moves and destructions", "anchors": ["include/Mutual_ptr.hpp: Mutual_ptr"]}
{"id": "C14", "title": "Shared vertices: merging preserves references, mass and the weighted position", "statement": "Over any history of creating vertex handles and merging (`eat`) vertices, each handle refers to exactly one live vertex, that vertex's list of handles is exactly the set of handles referring to it, the mass of a vertex is the number (sum) of the originally created vertices merged into it, its position just after the merge is the mass-weighted mean of the two, and every pair of handles whose vertices were merged refers to the same vertex forever after.", "quantifier": "every history of handle creations, moves, destructions and merges", "why_tests_cant": "aliasing through several handles; union-find style reasoning over unbounded histories", "anchors": ["src/Vertex.cpp: Vertex::eat, Transferable_ptr, Non_transferable_ptr", "include/Vertex.hpp"]}
{"id": "C15", "title": "Element containers: serial numbers identify elements permanently", "statement": "Over any history of `emplace` and `purge`, each element gets a serial number never used before at its refinement level, `at(level, serial)` returns that same element for as long as it exists and throws afterwards, and `purge` removes exactly the elements marked for deletion, leaving the order of the others unchanged.", "quantifier": "every history of emplace/purge, every level and serial number", "why_tests_cant": "history-dependent; reuse of serial numbers only appears after deletions", "anchors": ["include/Element_container.hpp: Complete_element_container", "include/erase_if.hpp"]}
{"id": "C16", "title": "erase_if removes exactly the matching entries", "statement": "`erase_if(vec, predicate)` leaves exactly the entries for which the predicate is false, in their original order, and evaluates the predicate once per entry.", "quantifier": "every vector and every predicate", "why_tests_cant": "vectors of every length and every pattern of matches", "anchors": ["include/erase_if.hpp: erase_if"]}
{"id": "C17", "title": "Composite views enumerate every element exactly once", "statement": "Indexing the concatenated element, connection and kernel views from 0 to size()-1 visits every entry of every part exactly once, in order; no index below size() is rejected or reads outside the underlying storage.", "quantifier": "every list of underlying sequences including empty ones, and every index", "why_tests_cant": "off-by-one at part boundaries for all combinations of empty/non-empty parts", "anchors": ["include/Sequence.hpp", "include/Sequences.hpp: Concatenation, Index", "include/Mesh_by_type.hpp: Connection_view"]}
{"id": "C18", "title": "Connected faces are glued in the documented orientation", "statement": "For every pair of element faces that may be connected, the vertex pairs the mesh merges are exactly those of the documented 'laziest possible orientation': the k-th vertices listed for the two faces coincide after stretching the elements only along the two face dimensions, the listing is a bijection onto the vertices of each face, and the resulting gluing is orientation preserving.", "quantifier": "every dimensionality, every pair of (dimension, sign) faces that are allowed to be connected", "why_tests_cant": "must agree simultaneously for all face pairs and with the permutation used for face data (C19), which tests check only in samples", "anchors": ["src/connection.cpp: vertex_inds, face_vertex_inds", "include/connection.hpp: Connection_direction"]}
{"id": "C19", "title": "Face data permutation matches the vertex gluing", "statement": "Before neighbouring face data are compared, `match_faces` reorders the second face's data so that entry i of both faces belongs to the same physical quadrature point (the one given by the vertex gluing of C18, extended linearly), for every variable; `restore` afterwards puts the data back exactly.", "quantifier": "every row size, number of variables, face data contents and allowed pair of faces", "why_tests_cant": "every polynomial degree; transposition and reversals in column/row-major layouts are easy to confuse", "anchors": ["include/Face_permutation.hpp / src: Face_permutation, match_faces, restore", "include/connection.hpp"]}
{"id": "C20", "title": "Rows of quadrature points partition the element", "statement": "For each dimension, iterating over all rows and all positions in the row visits every quadrature point exactly once, face index and row index correspond one-to-one, and reading a row then writing it back changes nothing while writing a row changes only that row.", "quantifier": "every n_dim, row size, dimension index and data", "why_tests_cant": "all sizes; used as a basis for data-race freedom in kernels", "anchors": ["include/Row_index.hpp", "include/Row_rw.hpp"]}
{"id": "C21", "title": "Element and face storage blocks do not overlap", "statement": "The blocks of element storage handed out for each stage, for the time step scale, the artificial viscosity coefficients, the forcing terms and the advection state, the blocks of face storage that the kernels of each PDE use on the two sides of a connection, and the face normals, lie within the allocated storage and are pairwise disjoint; the PDEs' variable offsets denote the element's blocks. The separately sized coarse face of a hanging-node connection has room for every PDE exactly if row_size <= 2*n_dim + 6, which covers the default maximal row size 8.", "quantifier": "all storage parameters (n_stage, n_var, n_dim, row_size, n_forcing)", "why_tests_cant": "address arithmetic must hold for all parameter values; an overlap is silent corruption", "anchors": ["src/Element.cpp, include/Element.hpp", "include/Storage_params.hpp", "include/connection.hpp: Face_connection", "include/pde.hpp"]}
{"id": "C22", "title": "History monitors report the extrema of the recent history", "statement": "After any sequence of samples the monitor's minimum and maximum are exactly the extrema of the kept samples, which number at most the buffer size, include the latest recorded sample and all lie within the window before it; a sample is not recorded only if it comes less than one growth factor (window^-1/buffer) after the last recorded one, and every recorded sample later than one growth factor past the beginning of the window is kept. All calls terminate.", "quantifier": "every sequence of samples with nonnegative iteration numbers and finite values, every window fraction in (0,1), every positive buffer size", "why_tests_cant": "history-dependent; thresholding only matters after long runs", "anchors": ["src/History_monitor.cpp", "include/History_monitor.hpp"]}
{"id": "C23", "title": "Nearest point on a discrete surface geometry is nearest", "statement": "For every simplex geometry (any set of segments in 2D or triangles in 3D, none of which is reduced to a single point, or at most 100 arbitrary ones) and every query point, the search tree can be built and `nearest_point` within a maximum distance returns a point lying on one of the simplices, no point of any simplex is closer, its reported squared distance is the true one and less than the maximum, and it returns an empty result only if no simplex point is closer than the maximum distance; splitting the simplices into a tree for speed and the initial distance guess never change this.", "quantifier": "every list of simplices, every query point, every initial distance guess", "why_tests_cant": "geometric pruning errors appear only for particular positions and sizes", "anchors": ["include/Simplex_geom.hpp: Simplex_geom::nearest_point", "include/Nearest_point.hpp"]}
{"id": "C24", "title": "Line intersections with a discrete surface are complete", "statement": "`intersections(p0, p1)` of a simplex geometry returns the parameter of every simplex crossed by the line, independent of how the simplices are stored in the search tree.", "quantifier": "every list of simplices of every size and every line", "why_tests_cant": "the search-tree pruning is conservative for small geometries only; unit tests use unit-size geometries", "anchors": ["include/Simplex_geom.hpp: Simplex_geom::intersections, recursive_intersections", "include/math.hpp: Ball, intersects"]}
{"id": "C25", "title": "Characteristic decomposition", "statement": "For every dimension, admissible state, nonzero direction and decomposed vector: the direction of the Euler characteristics is the unit vector along the given one; the eigenvalues are u-c, u+c, u in the order returned; the three columns of the decomposition sum to the decomposed vector; and each column is an eigenvector (or zero) of the Jacobian of the Euler flux through that direction for the corresponding eigenvalue. The convective flux is the Euler flux.", "quantifier": "every admissible flow state, direction and decomposed state vector, all dimensionalities", "why_tests_cant": "an identity over a continuum of states", "anchors": ["include/pde.hpp: Navier_stokes::Pde::Characteristics"]}
{"id": "C26", "title": "Wall boundary conditions impose the wall condition on the interface average", "statement": "For every interior state: the nonpenetration ghost state has the same mass, energy, kinetic energy and tangential momentum and exactly opposite normal momentum (and applying it twice gives back the interior state), and leaves only the normal momentum transport flux at the interface; the no-slip ghost state makes the average momentum zero and keeps the mass, the wall energy is the geometric mean of interior and ghost energy, and the average of the interior and ghost heat flux equals the prescribed heat flux (moved towards it by half the coercion in general); freestream, copy, outflow and pressure-outflow ghost states and fluxes are as documented and admissible. Nothing beyond the face is written.", "quantifier": "every interior state and face normal, all dimensionalities", "why_tests_cant": "an identity/inequality over a continuum of states", "anchors": ["src/Boundary_condition.cpp", "include/Boundary_condition.hpp", "doc/boundary_conditions.dox"]}
{"id": "C27", "title": "Discrete conservation", "statement": "On a mesh of Cartesian and deformed elements joined by conformal and hanging-node connections, each call of compute_convection (both stages, or with compute_residual) and compute_diffusion changes the total of each conserved variable only through the boundary: the contribution of each interior face, conformal or refined (with or without stretched mortar faces), cancels exactly, the volume terms and the modal filter contribute nothing, and the change equals the time step times the flux through the ghost sides of boundary connections. Totals are weighted with Jacobian determinant over local time step scale, which is what the local time step makes conserved.", "quantifier": "every flow state, row size and mesh connectivity", "why_tests_cant": "a telescoping identity over all states and all bases satisfying the summation-by-parts property", "anchors": ["include/Spatial.hpp: Neighbor, Local, Prolong_refined, Restrict_refined", "include/Derivative.hpp"]}
{"id": "C28", "title": "Polynomial exactness of the nodal basis", "statement": "For every set of distinct nodes, `Basis::interpolate` reproduces every polynomial of degree below the row size at every sample point, and the differentiation matrix of the equidistant basis gives the exact derivative of such polynomials at the nodes.", "quantifier": "every row size, node set, polynomial and sample point", "why_tests_cant": "an identity for all polynomials of all degrees", "anchors": ["src/Basis.cpp: Basis::interpolate", "src/Equidistant.cpp: Equidistant::diff_mat"]}
{"id": "C29", "title": "The physical basis enumerates all monomials of bounded degree once", "statement": "The physical (Legendre) basis has exactly one function for each multi-index whose entries sum to less than the row size, and `size()` equals the number of such multi-indices; the Legendre polynomials are evaluated at arguments in [-1, 1] at every quadrature point, unless the bounding box has no extent in that dimension.", "quantifier": "every n_dim in 1..3 and row size", "why_tests_cant": "enumeration for all row sizes", "anchors": ["src/Physical_basis.cpp", "include/Physical_basis.hpp"]}
{"id": "C30", "title": "Integer power and logarithm helpers", "statement": "`math::pow(b,e)` is b^e (rounded to zero for negative e in integers) and `math::log(b,a)` returns the least exponent n with b^n >= a (and -1 for b < 2) exactly when the result of the power fits in int; otherwise they overflow; pow of base 0 with negative exponent divides by zero.", "quantifier": "all integer arguments", "why_tests_cant": "all arguments including overflow borders", "anchors": ["include/math.hpp: pow, log"]}
{"id": "C31", "title": "Bracketing root finders", "statement": "For a continuous function with a sign change on the interval, the bisection/secant root finder keeps a sign change inside its bracket at every iteration, shrinks the bracket by half in each step, and returns a point within tolerance of a root.", "quantifier": "every continuous function with a sign change, every tolerance", "why_tests_cant": "quantifies over all functions and iterations", "anchors": ["include/math.hpp: bisection"]}
{"id": "C32", "title": "Iterative linear solvers track the true residual", "statement": "At every iteration of BiCGStab, the stored residual vector equals the right-hand side minus the operator applied to the current solution (exact arithmetic), the right-hand side and the reference residual are kept, and the last step minimises the residual along its direction.", "quantifier": "every linear operator on a finite-dimensional space, every inner product, guess, right-hand side and number of iterations", "why_tests_cant": "needs an invariant over iterations for arbitrary operators", "anchors": ["src/iterative.cpp / include/iterative.hpp: gmres, bicgstab", "include/Linear_equation.hpp"]}
{"id": "C33", "title": "Stopwatches account time correctly", "statement": "Over any history of start/pause/reset calls, time() is exactly the total duration of the intervals completed (from a start to the pause that ends it) since the last reset, n_calls() is the number of those intervals, running() tells whether the last accepted start/pause was a start, and redundant starts or pauses (and sums involving a running stopwatch) are rejected without changing anything. An interval that straddles a reset counts in full once it is paused.", "quantifier": "every history of calls and clock readings", "why_tests_cant": "history-dependent", "anchors": ["src/Stopwatch.cpp", "include/Stopwatch.hpp", "include/Stopwatch_tree.hpp"]}
{"id": "C34", "title": "Layer sequences fill the unit height", "statement": "For every wall spacing in (0, 1/2] and number of wall layers, the first n_wall layers have the wall spacing, the following layers grow by a factor of exactly 2, and the heights of all layers add up to 1.", "quantifier": "every wall spacing and number of wall layers", "why_tests_cant": "the unit test uses one nearly-degenerate parameter set with a tolerance", "anchors": ["src/Layer_sequence.cpp", "include/Layer_sequence.hpp"]}
{"id": "C35", "title": "Mesh validity: every face is connected exactly once", "statement": "`valid()` reports no missing or duplicate connections exactly when every face of every element takes part in exactly one connection; after `connect_rest(bc)` no face is unconnected and no existing connection is changed.", "quantifier": "every set of elements and connections", "why_tests_cant": "arbitrary mesh topologies", "anchors": ["include/Mesh_by_type.hpp: record_connections, connect_empty", "src/Accessible_mesh.cpp: valid, connect_rest"]}
{"id": "C36", "title": "Mesh file round trip preserves connectivity", "statement": "Writing a mesh to a file and reading it back gives the same elements with the same connections, in particular each refined connection lists the same fine elements in the same order.", "quantifier": "every mesh, every connection direction", "why_tests_cant": "depends on orientation-dependent permutation of fine elements that most meshes do not exercise", "anchors": ["src/Accessible_mesh.cpp: write, read constructor", "include/connection.hpp: Refined_connection", "doc/mesh_io.dox"]}
{"id": "C37", "title": "Admissibility enforcement", "statement": "When `fix_admissibility` returns, the state is thermodynamically admissible everywhere it is checked, and the number it reports is the number of smoothing iterations performed.", "quantifier": "every initial state and every response of the smoothing operator", "why_tests_cant": "depends on how many iterations the state takes to recover, and whether it leaves the admissible set again", "anchors": ["src/Solver.cpp: Solver::fix_admissibility"]}
{"id": "C38", "title": "Simulated time and iteration counters", "statement": "Over any run the solver's flow time equals the sum of the time steps applied to the flow state and the iteration counter equals the number of updates.", "quantifier": "every sequence of updates with and without admissibility fixes", "why_tests_cant": "depends on rare fix events", "anchors": ["src/Solver.cpp: Solver::update"]}
{"id": "C39", "title": "Refinement balance", "statement": "After the refinement part of Accessible_mesh::update() elements that share a face differ by at most one refinement level and no element has an element more than one level finer at one of its edges; update() never fails an assertion and never follows a null pointer there; the loop that smooths the refinement levels always ends, removes no node and loses no element. The states required are those left by construction, set_surface() and update() itself.", "quantifier": "every mesh, with or without surface, every surface, every set of requested refinements and coarsenings, every set of extruded elements", "why_tests_cant": "propagation chains of any length", "anchors": ["src/Accessible_mesh.cpp: update, needs_refine, refine_by_record"]}
{"id": "C40", "title": "Vertex data shared between elements is schedule independent", "statement": "Sharing per-vertex data between the elements (`Solver::share_vertex_data` up to the matching of hanging vertices, with `Vertex::vector_max` or `vector_min`) leaves, at every vertex of every element, the greatest (least) of the values that exactly the elements touching that vertex had, whatever order the vertices of the elements are processed in, provided every handle belongs to exactly one vertex of one element of the mesh.", "quantifier": "every mesh, every data and every processing order", "why_tests_cant": "all schedules of a parallel loop", "anchors": ["src/Accessible_mesh.cpp / src/Solver.cpp: share_vertex_data", "src/Vertex.cpp: Vertex::vote/shared value"]}
{"id": "C41", "title": "CSV tables", "statement": "read_csv returns exactly the table of numbers in the file, row by row, for every rectangular file of numeric entries separated by commas whose lines are all ended by a line break; what follows a blank line is ignored.", "quantifier": "every nonempty rectangular table, every entry accepted by std::stod", "why_tests_cant": "all inputs including ragged ones", "anchors": ["src/read_csv.cpp"]}
{"id": "C42", "title": "Tensor-product operators", "statement": "`hypercube_matvec` applies the given matrix along every dimension (equals the Kronecker power applied to the vector), `dimension_matvec` along exactly one, `pow_outer` is the outer power, and `interp` is multilinear interpolation reproducing its values at the vertices.", "quantifier": "every matrix with at least one row and column, every vector and every positive number of dimensions", "why_tests_cant": "all sizes", "anchors": ["include/math.hpp: hypercube_matvec, dimension_matvec, pow_outer, interp"]}
{"id": "C43", "title": "Geometric predicates", "statement": "`proj_to_segment` returns a nearest point of the segment to the query (also if the endpoints coincide), `bounding_ball` contains the convex hull of its points and is the smallest ball centred at their mean that does, and `intersects` holds exactly if the line through the two distinct points meets the ball.", "quantifier": "every point, segment, simplex and ball", "why_tests_cant": "a continuum of inputs including degenerate ones", "anchors": ["include/math.hpp: proj_to_segment, bounding_ball, intersects"]}
{"id": "C44", "title": "Flood fill called on a non-leaf", "statement": "Calling `flood_fill(status)` on a node that is not a leaf does exactly what calling it on its leaf descendant with the smallest coordinates would do to the leaves.", "quantifier": "every tree, every initial assignment of statuses, every non-leaf node", "why_tests_cant": "the extra leaves reached depend on the neighbours of the non-leaf and on which leaves are already processed", "anchors": ["src/Tree.cpp: Tree::flood_fill", "include/Tree.hpp: flood_fill"]}
{"id": "C45", "title": "Face numbering helpers", "statement": "`stretched_ind` numbers the fine faces/vertices of a refined face by the binary numeral of the coordinates along which the face is not stretched, without reading outside the stretch flags, and `direction` is the outward unit normal of the given face.", "quantifier": "every n_dim in 1..3, face index, vertex index and stretch flags", "why_tests_cant": "index formulas used far away from where they are computed", "anchors": ["include/math.hpp: stretched_ind", "src/math.cpp: direction"]}
{"id": "C46", "title": "Run-time kernel selection is exact", "statement": "`kernel_factory<kernel>(n_dim, row_size)` returns the template instance for exactly the requested number of dimensions and row size if 1 <= n_dim <= 3 and 2 <= row_size <= config::max_row_size, and throws for every other pair of integers.", "quantifier": "every pair of integers and every configured maximum row size", "why_tests_cant": "The chain of template specializations wraps around between dimensions; an off-by-one selects an instance with other array sizes, for one combination only.", "anchors": ["include/kernel_factory.hpp: Kernel_lookup, kernel_factory"]}
{"id": "C47", "title": "Refined connections join the right fine faces", "statement": "For every allowed pair of faces, order of the two sides and stretching, constructing a `Refined_connection` with the right number of fine elements merges every corner of the coarse face with exactly the fine-element vertex at the same location, and points every mortar face of the coarse face to the connection of exactly the fine element at the same location (in the orientation of C18). With another (nonzero) number of fine elements it throws.", "quantifier": "every dimensionality, allowed pair of faces, order, stretching and number of fine elements", "why_tests_cant": "About 250 combinations of faces, signs, order and stretching, each with index permutations computed in different ways.", "anchors": ["include/connection.hpp: Refined_connection, coarse_stretch", "src/connection.cpp: face_vertex_inds, vertex_inds", "include/math.hpp: stretched_ind"]}
{"id": "C48", "title": "Hanging vertices are interpolated", "statement": "`Hanging_vertex_matcher::match` gives every vertex of the fine faces of a refined face the multilinear interpolation of the values at the corners of the whole face at the vertex' location, for every stretching, and changes no other vertex.", "quantifier": "every face, stretching and vertex value, 2 and 3 dimensions", "why_tests_cant": "The values are real numbers and the index arithmetic differs for every stretching.", "anchors": ["src/Hanging_vertex_matcher.cpp: match", "src/math.cpp: hypercube_matvec"]}
{"id": "C49", "title": "Layer sequences: spacing, growth and exact total height", "statement": "For every wall spacing and number of wall layers the first n_wall layers have the wall spacing and every further layer is exactly twice as high as the one before; the number of growth layers is the unique g with ws < 2^-g <= 2 ws; heights are positive as long as the wall layers fit in the unit height; the total height is exactly 1 + 2^-g (n_wall ws - 2^-g).", "quantifier": "every wall spacing and number of wall layers", "why_tests_cant": "The number of layers comes from a rounded logarithm, so boundary cases are at all powers of two.", "anchors": ["src/Layer_sequence.cpp: n_layers, spacing, cumulative_height"]}
{"id": "C50", "title": "HIL statements run in order unless the next one starts with an operator sign", "statement": "For a program text t built from the documented grammar, a separator (newline or `;`, with blanks or more separators around it) and any program text y, well-formed or not, that does not start with a blank, a separator, `$` or a binary operator sign: executing `t;y` ends as executing t and then y. If t ends in an exception or in undefined behaviour, y is not reached and the variables are those at that point.", "quantifier": "every program text t of the documented grammar, every program text y, every variable state, every host", "why_tests_cant": "the interaction is between the end of one arbitrary expression and the start of another; the loop falls through a separator with the previous value still in hand", "anchors": ["src/Interpreter.cpp: Interpreter::_eval, Interpreter::exec", "doc/hil.dox: Operators (Notes)"]}
{"id": "C51", "title": "Only `exit` makes the HIL interpreter run off the end of its text", "statement": "Whatever program text is executed, with whatever variables (including an exception handler and superordinate namespaces), the interpreter never inspects or removes a character from an empty text buffer unless the program reads an `exit` variable: if a run does access the empty text, then the same run with `exit` replaced by a variable that throws ends with that exception.", "quantifier": "every program text, every variable state, every host, runs of any length", "why_tests_cant": "all inputs including malformed ones and all macro expansions; out-of-bounds reads in a std::list are silent", "anchors": ["src/Interpreter.cpp: _more, _pop, _skip_spaces, _char_is, _read_name, _eval, exec, the `exit` variable"]}
{"id": "C52", "title": "Vertex references and edges never dangle", "statement": "In every state a program can reach, a non-owning vertex reference (`Non_transferable_ptr`) is null or refers to a vertex that exists; it keeps its target through every operation that does not reset it, destroy it or assign to it, and becomes null exactly when its target vanishes (its last handle is gone or it is merged into another vertex). Edges between vertices are symmetric, never connect a vertex with itself, and only connect vertices that exist.", "quantifier": "every history of operations on handles, references and vertices", "why_tests_cant": "dangling pointers depend on the order of destruction over unbounded histories", "anchors": ["src/Vertex.cpp: Vertex::~Vertex, eat, connect, Non_transferable_ptr", "include/Vertex.hpp"]}
{"id": "C53", "title": "Questions about a vertex are answered by all of its handles", "statement": "In every reachable state a vertex is mobile exactly if all handles that refer to it are mobile, and needs smoothing exactly if some handle that refers to it does, whatever sequence of merges, copies and destructions led to that set of handles.", "quantifier": "every reachable state and every vertex", "why_tests_cant": "unbounded histories of aliasing handles", "anchors": ["src/Vertex.cpp: Vertex::is_mobile, needs_smooth", "include/Vertex.hpp"]}
{"id": "C54", "title": "Line intersections with a discrete surface are sound, and complete for surfaces of unit size", "statement": "`intersections(p0, p1)` of a simplex geometry returns only parameters of points of the line that lie in a simplex up to the gap tolerance, and if the bounding box of the surface has sides of at most 1 it returns the parameter of every crossing with a simplex that is not parallel to the line, however the simplices are stored in the search tree.", "quantifier": "every list of simplices that can be sorted, every line, every tolerance", "why_tests_cant": "rests on the pruning of every level of the tree and the bounding ball of every simplex", "anchors": ["include/Simplex_geom.hpp: Simplex_geom::intersections, recursive_intersections", "include/math.hpp: Ball, intersects"]}
{"id": "C55", "title": "The characteristic speed bounds every wave speed", "statement": "The characteristic speed returned by Navier_stokes::Pde (which limits the time step and scales the numerical dissipation) is at least the absolute value of every eigenvalue of the Euler flux Jacobian in every direction.", "quantifier": "every admissible state and nonzero direction, all dimensionalities", "why_tests_cant": "an inequality over a continuum of states and directions", "anchors": ["include/pde.hpp: Navier_stokes::Pde::char_speed", "include/pde.hpp: Navier_stokes::Pde::Characteristics"]}
{"id": "C56", "title": "Characteristic boundary condition recombines outgoing and incoming characteristics and keeps the ghost admissible", "statement": "For every interior and freestream state, Riemann_invariants::apply_state gives a ghost state that has at least half the interior mass and half the interior internal energy (hence is admissible) and that, unless this limit bites, is the sum of the outgoing characteristic components of the interior state and the incoming components of the freestream; in particular it is the interior state for supersonic outflow and when interior equals freestream, and the freestream for supersonic inflow. The interior state is recorded in the state cache.", "quantifier": "every admissible interior state, every freestream, face normal and face sign, all dimensionalities", "why_tests_cant": "the splitting depends on a continuum of states; the limiter only bites for extreme ones", "anchors": ["src/Boundary_condition.cpp: Riemann_invariants::apply_state", "doc/boundary_conditions.dox"]}
{"id": "C57", "title": "Characteristic boundary condition: outgoing transport fluxes vanish at the interface", "statement": "For every recorded state and interior transport flux, at the interface of a Riemann_invariants boundary condition the transport fluxes of the outgoing characteristics are zero and those of the incoming characteristics are unmodified.", "quantifier": "every admissible recorded state, every transport flux and face normal, all dimensionalities", "why_tests_cant": "a claim on a continuum of states; no test looks at the average of interior and ghost flux", "anchors": ["src/Boundary_condition.cpp: Riemann_invariants::apply_flux", "doc/boundary_conditions.dox", "include/Spatial.hpp: Neighbor_reconcile"]}
{"id": "C58", "title": "CSV reading terminates within bounds", "statement": "For every file content, read_csv terminates (returning a table or throwing) and never reads beyond the end of a line.", "quantifier": "every file content", "why_tests_cant": "hangs and out-of-bounds reads occur only for files no test contains (no final line break, short rows)", "anchors": ["src/read_csv.cpp", "include/read_csv.hpp"]}
{"id": "C59", "title": "GMRES minimises the residual over the Krylov space", "statement": "Each restart of gmres moves the solution to the one with the smallest residual in the Krylov space spanned by n_restart powers of the operator applied to the current residual; hence the residual never grows over any number of restarts, and when n_restart is the dimension the equation is solved exactly.", "quantifier": "every linear operator, inner product, guess, right-hand side, number of vectors and restarts", "why_tests_cant": "an optimality statement over all vectors of a space, for all operators", "anchors": ["src/iterative.cpp: gmres", "include/iterative.hpp"]}
{"id": "C60", "title": "Iterative solvers use only the vectors the equation provides", "statement": "gmres never uses a vector beyond those the equation object provides: objects with fewer vectors than needed are refused by the assertion, and the documented n_restart + 3 vectors are enough.", "quantifier": "every equation object, n_restart and n_iters", "why_tests_cant": "the test gives the solver ten times as many vectors as the dimension", "anchors": ["src/iterative.cpp: gmres", "include/iterative.hpp"]}
{"id": "C61", "title": "A reached solution is kept", "statement": "Calling an iterative solver on an equation that is already solved, or with more iterations than are needed, leaves a finite solution of the equation.", "quantifier": "every equation and number of iterations", "why_tests_cant": "rounding hides the 0/0 in almost every numerical test", "anchors": ["src/iterative.cpp: gmres, bicgstab"]}
{"id": "C62", "title": "Linear_equation interface and aliasing", "statement": "Dense_equation and the weighted equation satisfy the contract of Linear_equation (linear operator, symmetric positive definite inner product), and add and scale give the right result and change only the output vector for every choice of output and inputs, also when they coincide.", "quantifier": "every dimension, matrix, weights, coefficients and vector indices", "why_tests_cant": "aliasing of all index combinations", "anchors": ["src/Linear_equation.cpp", "src/Linearized.cpp: scale, add, inner"]}
{"id": "C63", "title": "BiCGStab uses only the vectors the equation provides", "statement": "bicgstab refuses equation objects with fewer than 8 vectors and otherwise never uses a vector beyond those provided, whatever the vectors contain.", "quantifier": "every equation object and number of iterations", "why_tests_cant": "needs all contents including non-finite ones", "anchors": ["src/iterative.cpp: bicgstab"]}
{"id": "C64", "title": "The admissibility fix comes to an end", "statement": "`fix_admissibility` always either returns or throws: it leaves an admissible state unchanged and reports 0; otherwise it returns a positive number below 10^5 or throws, and it throws exactly if no number n of smoothings with 2n <= 10^5 makes the state admissible for the next n - 1 smoothings.", "quantifier": "every initial state and every response of the smoothing operator and the admissibility check", "why_tests_cant": "the number of iterations depends on the whole history of admissible and inadmissible intermediate states", "anchors": ["src/Solver.cpp: Solver::fix_admissibility"]}
{"id": "C65", "title": "Iteration counters and time without fixes", "statement": "Over any number of updates the iteration counters in the namespace and in the status advance by one per update, the copies of time step, flow time, iteration and fix count in the namespace and the status stay equal, and if no fix happens the flow time advances by exactly the sum of the time steps applied to the flow state.", "quantifier": "every sequence of updates, kernels, number of inner and Chebyshev iterations", "why_tests_cant": "depends on the combination of inner loops, early exits and fixes", "anchors": ["src/Solver.cpp: Solver::update"]}
{"id": "C66", "title": "Largest time step", "statement": "No time step taken by `update` exceeds the parameter `max_time_step`.", "quantifier": "every state, parameters and number of Chebyshev steps", "why_tests_cant": "a test would have to know when the limit is active", "anchors": ["src/Solver.cpp: Solver::update", "doc/parameters.dox: max_time_step"]}
{"id": "C67", "title": "Chebyshev time steps", "statement": "For every number n of steps, n Euler steps of sizes chebyshev_step(n, i) amplify the mode with eigenvalue -(1 - cos theta) by cos(n theta); hence every mode stable for the unit step is stable for the sequence; the sizes are positive and increasing in i, so chebyshev_step(n, n - 1) is the largest; and they add up to n^2.", "quantifier": "every number of steps and every eigenvalue", "why_tests_cant": "the tests sample one n at 100 points", "anchors": ["src/math.cpp: chebyshev_step", "src/Solver.cpp: Solver::update"]}
{"id": "C68", "title": "The derivative of the scheme is conservative and exact", "statement": "For every basis whose quadrature rule has distinct nodes, positive weights and integrates polynomials of degree up to row_size - 2: the quadrature of what Derivative returns is the difference of the boundary values it was given, whatever the values inside; interior_term plus boundary_term is operator(), and the interior term has integral zero; applied to a polynomial of degree less than row_size it gives its derivative at the nodes. If the rule is at least as exact as Gauss-Lobatto, differentiation satisfies summation by parts, so the square norm changes through the ends only.", "quantifier": "all row sizes, all nodes and weights with the stated exactness, all values", "why_tests_cant": "Tests compare the derivative of a few polynomials for the generated row sizes; conservation for arbitrary values and any rule cannot be enumerated.", "anchors": ["include/Derivative.hpp:14-61", "script/Basis.py:70-102"]}
{"id": "C69", "title": "Restriction to a coarse face keeps the integral and is the best approximation", "statement": "Prolongation evaluates every polynomial of degree less than row_size exactly at the nodes of one half interval. Restriction keeps the integral for any rule. With a rule as exact as Gauss-Legendre, restriction of the two prolonged halves gives back the polynomial, and for arbitrary values on both halves it gives the polynomial with the least weighted square distance, and no other does.", "quantifier": "all row sizes, all rules of the stated exactness, all values on both halves", "why_tests_cant": "Tests check single polynomials for the compiled row sizes; optimality quantifies over all polynomials and all discontinuous data.", "anchors": ["script/Basis.py:129-150"]}
{"id": "C70", "title": "The filter damps each orthogonal mode by its own factor and keeps the mean", "statement": "With a rule at least as exact as Gauss-Lobatto, the orthogonal polynomials of the basis are orthonormal under the rule, the first is the constant one, the filter multiplies the mode of degree k by 2^-k, and so keeps the mean of any values.", "quantifier": "all row sizes of at least 2, all rules of the stated exactness, all values", "why_tests_cant": "Orthogonality of all pairs of modes for every row size rests on the Legendre recurrence and the exactness of the rule; tests cover the row sizes compiled.", "anchors": ["script/Basis.py:104-127", "script/Basis.py:152-156"]}
{"id": "C71", "title": "Generated tables are read back at the entry they were written for", "statement": "For every row size from 2 to the largest generated, node, node_weights, diff_mat, boundary, orthogonal, filter, prolong and restrict of the generated classes return for every entry the number computed for that row, column and half, and read nothing outside their tables; other row sizes throw; orthogonal reads outside its table exactly if the degree is not less than the row size; prolong and restrict of Gauss_lobatto throw.", "quantifier": "all largest row sizes, all row sizes, all entries, all node and weight values", "why_tests_cant": "Transposed or shifted tables can agree on symmetric entries; the writer is Python, the reader generated C++, so no unit test sees both.", "anchors": ["script/auto_generate.py:67-270"]}
{"id": "C72", "title": "Face data of elements points into the connections of their faces", "statement": "In a mesh for which valid() reports neither redundant nor missing connections, the face data pointer of every face of every element points into the storage of the connection the face takes part in.", "quantifier": "every sequence of calls of the mesh interface, including refused ones", "why_tests_cant": "pointers are set by constructors and cleared by destructors of connections, so they depend on the whole history of the mesh; dangling or null pointers need not crash", "anchors": ["include/connection.hpp: constructors and destructors", "src/Accessible_mesh.cpp: connect_*, disconnect_boundary, connect_rest, purge", "src/Element.cpp: set_face"]}
{"id": "C73", "title": "cleanup() deletes exactly the marked elements and what refers to them", "statement": "On a mesh with a tree cleanup() deletes exactly the elements whose record is not 0, the connections in which one of them takes part and the boundary connections of faces that have meanwhile been covered by an element of the tree; the order of everything else is kept and no connection refers to a deleted element. Without tree it changes nothing. write() leaves marks behind: calling it before cleanup() deletes elements that were not marked.", "quantifier": "every sequence of calls of the mesh interface, every set of marks", "why_tests_cant": "needs histories that mix deletion with all kinds of connections", "anchors": ["src/Accessible_mesh.cpp:1102-1117, 246-251, 1532-1545", "include/Mesh_by_type.hpp:204-226", "include/Element_container.hpp:82-96"]}
{"id": "C74", "title": "A locked element is not coarsened", "statement": "If Element::unrefinement_locked is true update() does not coarsen the element (documentation of the member: \"if true, it won't be unrefined\"). Part that holds: a set of siblings all of which are locked, themselves or through an element extruded from them, is left alone.", "quantifier": "every mesh without surface, every set of requests and locks", "why_tests_cant": "needs siblings with different locks; the result looks like an ordinary coarsening", "anchors": ["include/Element.hpp:53", "src/Accessible_mesh.cpp:1153-1204"]}
{"id": "C75", "title": "An update loses no element", "statement": "After update() every element that was made for a node of the tree and is not to be deleted is still the element of that node, so that the mesh has no overlapping elements. Part that holds: meshes without surface; and, for every mesh, the refinement and coarsening requested by the caller.", "quantifier": "every mesh, surface and set of requests", "why_tests_cant": "needs a surface whose neighbourhood is refined in a particular way; the overlapping elements produce no error", "anchors": ["src/Accessible_mesh.cpp:1221-1283", "include/Mutual_ptr.hpp:31, 50-66"]}
{"id": "C76", "title": "The result of an update does not depend on the order of the extruded elements", "statement": "The loop of update() that passes the requests of extruded elements to the elements they were extruded from runs in parallel; its result does not depend on the order of the iterations. Part that holds: elements for which refinement is requested anywhere, or for which all or none of the extruded elements request coarsening.", "quantifier": "every list of extrusion connections and every order of it, every set of requests", "why_tests_cant": "a race between threads; needs extruded elements with different requests", "anchors": ["src/Accessible_mesh.cpp:1142-1160"]}
{"id": "C77", "title": "An update carries out the requests on a mesh that fills its tree", "statement": "On a mesh whose elements fill the tree update() ends, loses no element and leaves a mesh that fills the tree and is balanced; every element for which (itself or an element extruded from it) only refinement is requested is refined; a node disappears only if all its siblings have elements for which refinement is not and coarsening is (or may be, by an extruded element) requested and at least one of them is not locked. The property is kept by update() and holds for a new mesh.", "quantifier": "every mesh reachable without surface, every set of requests", "why_tests_cant": "propagation chains of any length; every history of updates", "anchors": ["src/Accessible_mesh.cpp:814-881, 1129-1297"]}
{"id": "C78", "title": "Deleting bad elements leaves a mesh that can be extruded", "statement": "The loop of delete_bad_extrusions ends; it only marks elements for deletion, and afterwards every face of an element is covered by elements completely or not at all, elements that touch across an edge or at a corner have a common face neighbour, and in three dimensions an edge of one exposed face is covered completely or not at all. It keeps the mesh balanced, and it does nothing to a mesh without empty leaves.", "quantifier": "every mesh with a consistent tree, every surface, every order of the elements in every sweep of the parallel loop", "why_tests_cant": "termination of a do-while loop over all meshes; the guarantee is about every pair of elements that touch, on any levels", "anchors": ["src/Accessible_mesh.cpp:889-1007"]}
{"id": "C79", "title": "The deletion of bad elements is repeatable", "statement": "Comment in the source: \"To make results repeatable, if the elements have different refinement levels, delete the finer one(s). If they have the same refinement level, delete both\": the set of deleted elements does not depend on the order in which the parallel loop visits the elements. Part that holds: once the loop has ended another call changes nothing, in whatever order.", "quantifier": "every mesh with a consistent tree, every two orders of the elements", "why_tests_cant": "depends on the scheduling of threads", "anchors": ["src/Accessible_mesh.cpp:894-940"]}
{"id": "C80", "title": "Exactly the deformed layer is deformed", "statement": "After deform() the deformed elements of the tree are exactly those with an exposed face, their face neighbours except opposite to the exposed face, and what has to be added so that of the elements at one face of a deformed element all or none are deformed. The nodes and which of them have elements are the same as before; no element is lost; elements without a node are not touched. The hypotheses hold after set_surface and after update() followed by delete_bad_extrusions.", "quantifier": "every balanced mesh whose faces are covered completely or not at all, every order of the elements in the parallel loops", "why_tests_cant": "least fixed point over meshes of any size and shape; independence of the order of parallel iterations", "anchors": ["src/Accessible_mesh.cpp:883-887, 1009-1100"]}
{"id": "C81", "title": "Without a surface every face of every element is connected, once and rightly", "statement": "After add_tree and any sequence of update() calls without a surface, every face of every element has exactly one connection and its face pointer is not null; a conformal connection is between elements of one level that share the face, a refined one between an element and all elements at its face, which are one level finer and in row-major order, a boundary one at the boundary of the tree; Cartesian connections go from the lower to the upper element. Every leaf of the tree has an element. The next update ends without failing an assertion.", "quantifier": "every number of updates, every refinement and unrefinement criterion, 2 or more dimensions, every order of the parallel loops", "why_tests_cant": "histories of adaptive refinement are unbounded; a missing or doubled connection needs a particular constellation of levels", "anchors": ["src/Accessible_mesh.cpp:742-812, 1102-1113, 1129-1316", "include/Mesh_by_type.hpp:194-215"]}
{"id": "C82", "title": "set_surface leaves exactly the faces at the surface unconnected", "statement": "After set_surface (up to the extrusion) on a mesh as in C81 a face of an element has a connection if and only if elements, or the boundary of the tree, are behind it; the connections are right and no face has two; every face has elements behind all of it or none of it. It ends if the flood fill starts at a node of the tree.", "quantifier": "every mesh reached by updates, every surface, every starting node, every choice of exposed faces that point away, every order of the parallel loops", "why_tests_cant": "the surface cuts the mesh in arbitrary ways; depends on the deletion of bad elements and the exchange of elements for deformed ones", "anchors": ["src/Accessible_mesh.cpp:704-725, 742-812, 889-1113"]}
{"id": "C83", "title": "An update with a surface keeps the connections right", "statement": "After update() on a mesh with a surface and extruded elements all connections are right, no face has two, and every face with elements behind it is connected to them. Part that holds: it does if the update loses no element (C75); then the update ends too, a connected face has elements, the boundary or an extruded element behind it, and with one extruded layer the list of extrusion connections contains no destroyed connection.", "quantifier": "every sound mesh, every surface and every request, 2 or more dimensions, every order of the parallel loops", "why_tests_cant": "histories of adaptive refinement next to arbitrary surfaces", "anchors": ["src/Accessible_mesh.cpp:742-812, 1102-1113, 1129-1316"]}
{"id": "C84", "title": "With extruded elements every face of every element is connected, and only extruded elements touch the surface", "statement": "After set_surface and any sequence of update() calls and split_layers that starts from a mesh as in C81, every face of every element has exactly one connection and all connections are right. An element of the tree has an extruded element behind exactly those faces that have no element of the tree and no boundary behind them; in particular only extruded elements touch the surface. Every element is the element of a leaf or an extruded one; as long as no layer is split, elements are extruded from elements of the tree only, and each is connected with the one it was extruded from. No pointer in the list of extrusion connections dangles. The next update that loses no element ends.", "quantifier": "every history of updates that lose no element (C75) and, once there are several layers, do not ask for refinement of extruded elements (C85); every surface, every request, every way to connect extruded elements with each other that uses only their free faces, 2 or more dimensions, every order of the parallel loops", "why_tests_cant": "histories are unbounded; a missing connection shows up as a null pointer only in particular constellations of levels and surface", "anchors": ["src/Accessible_mesh.cpp:240-244, 334-427, 618-632, 704-727, 1129-1319", "include/Mesh_by_type.hpp:149-215", "src/Case.cpp:291-302", "include/Mesh.hpp:78-101"]}
{"id": "C85", "title": "The list of extrusion connections never contains destroyed connections", "statement": "After any update() every entry of extrude_cons is a connection of the mesh. Part that holds: with one layer of extruded elements, and with several if no refinement of extruded elements is asked for; then, too, every connection of an element with one extruded from it is in the list.", "quantifier": "every mesh reached by updates, set_surface and split_layers, every surface and every request, 2 or more dimensions", "why_tests_cant": "a use after free may go unnoticed; needs several layers and a request of an outer element only", "anchors": ["src/Accessible_mesh.cpp:1102-1113, 1152-1160, 1302-1316", "include/Mesh_by_type.hpp:194-215", "src/Case.cpp:291-302"]}
{"id": "C86", "title": "A uniform flow stays uniform", "statement": "After Solver::initialize with a constant state, with that state as Freestream at every boundary, any number of inviscid time steps leaves the state of every element as it was, and the residual is zero; more generally the convective kernels do not change a uniform state of a PDE whose flux is linear in the normal. This holds on every mesh whose normals close: the discrete divergence of the normals is zero in each element, both sides of a connection have the same normal, and the normal of a refined face is what restriction makes of its mortar faces. Cartesian meshes, with hanging nodes, close.", "quantifier": "1 to 3 dimensions, every row size of 2 or more, every basis whose rule is exact to degree 2n-2, every mesh in which each face has exactly one connection, connections in all directions, every state, every sequence of time steps, with and without the filter; no admissibility fix is triggered", "why_tests_cant": "tests compare a handful of meshes within rounding; a wrong sign or permutation for one direction of connection is missed unless that direction occurs", "anchors": ["src/Solver.cpp:56-67, 391-401, 853-867, 899-913", "include/Spatial.hpp", "include/pde.hpp:41-180", "src/Boundary_condition.cpp:66-76"]}
{"id": "C87", "title": "Both sides of a face have the same normal after calc_jacobian", "statement": "After Solver::calc_jacobian every deformed connection has one normal: the state of its first side and, put in the order of the first side, the state of its second side are this normal up to the sign of the side. Between two elements it is the mean of the normals the elements computed. A coarse face of a refined connection keeps the normal of its element, the mortar faces have the prolonged normal, and restricting these gives the coarse normal back, so that no surface is lost or counted twice.", "quantifier": "every mesh of deformed and Cartesian elements in 1 to 3 dimensions in which each face has exactly one connection, all directions of connections, hanging nodes with and without stretching, any positions of the points (snapped or not, even if the elements leave gaps); for the restriction, rules of Gauss and Legendre", "why_tests_cant": "an error in one direction of connection or one order of the steps only shows as a small loss of conservation on meshes with that direction", "anchors": ["src/Solver.cpp:273-357", "include/connection.hpp:85-86", "include/Face_permutation.hpp", "include/Spatial.hpp:140-285"]}
{"id": "C88", "title": "The normals of an element close", "statement": "The discrete divergence of the normals that Deformed_element::set_jacobian computes in the element and on its faces is zero in each quadrature point, for each component. In two dimensions this holds wherever the points are, in three dimensions for elements whose points follow from their vertices.", "quantifier": "every row size of 2 or more; 2D: every basis and all positions; 3D: every rule exact to degree 2n-1, all positions of the eight vertices", "why_tests_cant": "an identity between real numbers for all positions; a test compares a few meshes within rounding", "anchors": ["src/Deformed_element.cpp:16-117", "include/Spatial.hpp:294-509"]}
{"id": "C89", "title": "A uniform flow stays uniform on deformed meshes", "statement": "After calc_jacobian on a mesh whose deformed elements are given by their vertices and meet in common vertices, Solver::initialize with a constant state and the same state as Freestream at all boundaries, any number of inviscid time steps leaves the state as it was and the residual is zero. The same holds for other positions of the points as long as each element closes and neighbours compute the same normals.", "quantifier": "2 and 3 dimensions, every row size of 2 or more, every symmetric rule of Gauss and Legendre, connections in all directions, hanging nodes with and without stretching next to deformed and Cartesian elements, every state, every sequence of time steps", "why_tests_cant": "needs every pair of directions of connections and every position of a hanging node; rounding hides small errors", "anchors": ["src/Solver.cpp:273-357, 391-401, 853-867, 899-913", "src/Deformed_element.cpp:16-117", "include/Spatial.hpp"]}
{"id": "C90", "title": "Snapped elements close in three dimensions", "statement": "The normals of a three-dimensional element one of whose faces has been snapped to a surface (node adjustments that are not zero, as snap_node_adj gives them) close, so that a uniform flow stays uniform. Part that holds: with two or three points in a row, any adjustments of all faces.", "quantifier": "every rule of Gauss and Legendre, all vertices and adjustments with positive determinants", "why_tests_cant": "the error is small for smooth surfaces and looks like discretization error", "anchors": ["src/Deformed_element.cpp:16-117", "src/Boundary_condition.cpp:508-530"]}
{"id": "C91", "title": "A uniform viscous flow stays uniform", "statement": "After Solver::initialize with a constant state and the same state as Freestream at all boundaries, any number of time steps of the Navier-Stokes equations with any transport models (compute_navier_stokes in the first stage, compute_euler in the second) leaves the state as it was, and compute_residual gives zero. This holds on Cartesian meshes with hanging nodes and, after calc_jacobian, on meshes of deformed elements that are given by their vertices.", "quantifier": "1 to 3 dimensions (2 and 3 for deformed elements), every row size of 2 or more, every basis with a rule of Gauss-Lobatto or Legendre exactness, every mesh whose normals close, every state, artificial viscosity and sequence of time steps, with and without filter", "why_tests_cant": "the diffusive kernels have their own path through faces, mortar faces and ghosts; tests use a few meshes and tolerances that hide an error in one orientation", "anchors": ["src/kernels_diffusive.cpp:8-26", "include/Spatial.hpp:294-640", "src/Solver.cpp:69-81, 346-366, 391-401, 853-867, 899-913", "include/pde.hpp:41-180", "include/connection.hpp:137-148, 292-301, 388-392"]}
{"id": "C92", "title": "Viscous fluxes follow Newton's and Fourier's laws and dissipate", "statement": "Given the gradient of the conserved variables of a differentiable field with positive mass and internal energy that is not negative, compute_flux_diff returns the flux of momentum and energy by Newton's law of viscosity and Fourier's law of conduction, with the true derivatives of velocity and temperature, plus the artificial diffusion. Without the latter it transports no mass, the stress is symmetric, vanishes in rigid motion and never adds energy to the flow, and conducted heat goes from hot to cold. Transport_model::sutherland is Sutherland's law and returns the reference value at the reference temperature.", "quantifier": "all fields, points, normals, transport models and artificial viscosities; up to 3 dimensions for dissipation", "why_tests_cant": "tests compare a few states with numbers or convergence rates; a wrong sign of a term that is small or vanishes in the tested flows is not seen", "anchors": ["include/pde.hpp:124-165", "include/Transport_model.hpp:16-56", "include/constants.hpp:44"]}
{"id": "C93", "title": "Points of deformed elements lie where vertices and face adjustments say", "statement": "Deformed_element::position returns for every quadrature point the multilinear interpolation of the vertices, plus for each direction the line from one end of the element to the other times the adjustments of the two face points in line with the point, weighted by the distances from the faces. Element::face_position, extrapolated from these, is the point of the spanned face plus the adjustment of that face point times the line across the element.", "quantifier": "2 and 3 dimensions, every row size, all vertices, all adjustments of all faces (of one face for face_position), every quadrature point", "why_tests_cant": "the order of contraction and the index arithmetic of the face points can be wrong in ways that symmetric elements and equal adjustments do not show", "anchors": ["src/Deformed_element.cpp:16-59", "src/Element.cpp:73-97"]}
{"id": "C94", "title": "Snapped faces lie on the surface", "statement": "After Geom_mbc::snap_node_adj on a face of an element whose other faces have no adjustments, with at least 3 points in a row: either no problem is reported; then in every point of the Gauss-Lobatto rule with one node less the face, as the polynomial through its quadrature points, is at the intersection of the surface with the line across the element that is nearest to the face, at most 0.999 of the line away, and the adjustments change by at most 1 per coordinate. Or a problem is reported; then some line has no intersection that near or the nearest ones would be too steep, and the face is the one spanned by its vertices, or with more than 3 points in a row is moved along the lines by the projection of the way to the nearest point of the surface. Other faces are not changed, and elements that are Cartesian or need no snapping not at all.", "quantifier": "2 and 3 dimensions, every row size from 3, all nodes, vertices and surfaces (any functions for intersections and nearest points), any previous adjustments of the face", "why_tests_cant": "surfaces in tests are smooth and few; that the face meets the surface exactly in the Lobatto points needs the degree of the rule to be one less than that of the basis, for every basis", "anchors": ["src/Boundary_condition.cpp:508-586", "src/Element.cpp:73-97", "src/Deformed_element.cpp:16-59"]}
{"id": "C95", "title": "Snapped faces of neighbours meet", "statement": "In two dimensions, after the sweep of Solver::snap_faces over snapped faces: where the walls of two connected elements join, both are at the average of their displacements before; at the ends that are at another boundary and in the inner points of the Gauss-Lobatto rule every wall is where it was. Walls that are polynomials of the degree of that rule and meet already are not changed at all. In two and three dimensions the flow state of every element is the same before and after, and no adjustments are changed except those of the walls.", "quantifier": "all meshes of deformed elements in which walls that join belong to elements connected one to one, all walls (at most one per element), every row size from 2, all nodes with a rule that contains both ends, all adjustments and flow states", "why_tests_cant": "the sweep uses the state and the face storage of the flow solver as scratch memory and runs through write_face, prolong, the boundary, the neighbour and the restrict kernel; whether it is neutral depends on all of them for every mesh", "anchors": ["src/Solver_snap_faces.cpp:9-117", "include/Spatial.hpp:599-705"]}
{"id": "C96", "title": "Snapped faces that meet are left alone in three dimensions", "statement": "In three dimensions the sweeps of Solver::snap_faces do not change walls that are polynomials of the degree of the Gauss-Lobatto rule and meet already, whether the walls continue each other, form a corner or hang on a coarser wall.", "quantifier": "all meshes in which every edge of a wall is at a boundary or joined to another wall, every row size from 2, all nodes with a rule that contains both ends, all flow states", "why_tests_cant": "only some orientations of corners and only hanging walls fail; a test with one box or sphere of equal elements sees none of it", "anchors": ["src/Solver_snap_faces.cpp:31-110", "include/connection.hpp:169-264", "include/Spatial.hpp:633-650"]}
{"id": "C97", "title": "Samples of elements for visualization are values of the element's polynomials", "statement": "A Vis_data of an element holds, for each variable, the values of the Qpoint_func in the quadrature points. There is one function that is in each reference coordinate a polynomial of degree less than the row size and has these values; call it the polynomial of the variable. interior(n), face(i_dim, sign, n), edges(n) and sample(ref_coords) return the values of these polynomials at: the uniform block of n points per dimension over the element; the uniform block over the face; n uniform points of every edge, the edges ordered by direction and then by the ends of the other coordinates; the given points. So wherever their points coincide they give the same values, and every field that is such a polynomial is visualized exactly. In one dimension edges and face do not return.", "quantifier": "all elements of any number of dimensions (faces and edges: at least 2), all row sizes >= 2, all nodes that are distinct, all boundary matrices that evaluate polynomials at the ends, all numbers of variables, all values, all numbers of sample points >= 1, all sample points", "why_tests_cant": "tests compare some samples of a few position functions with approximate numbers; index errors between dimensions, variables and samples can cancel for symmetric data, and exactness for all polynomials and sample counts is not testable", "anchors": ["src/Vis_data.cpp:7-111", "include/Vis_data.hpp:17-65", "src/math.cpp:19-81", "src/Basis.cpp:19-30"]}
{"id": "C98", "title": "Bounds of fields are attained extremes", "statement": "Solver::bounds_field(func, n_sample) returns for each variable the least and the greatest of the values of the variable's polynomials at the n_sample^n_dim uniform points of all elements: both are attained and no sampled value lies outside, provided there is at least one element and the values are representable.", "quantifier": "all meshes with at least one element, all numbers of dimensions, variables and sample points, all row sizes >= 2, all values of magnitude at most numeric_limits<double>::max()", "why_tests_cant": "a test sees one mesh; that no element, variable or sample point is left out, or mixed up with another variable, is a statement about all of them", "anchors": ["src/Solver.cpp:1171-1191", "src/Vis_data.cpp:80-89"]}
{"id": "C99", "title": "The standard atmosphere is the ICAO atmosphere", "statement": "standard_atmosphere_geopot(h, offset) throws exactly for altitudes outside 0 to 80 km (with a tolerance of 1e-10 m). At altitudes that are not less than 1e-10 m below the base of a layer, density and pressure satisfy the ideal gas law at the temperature that the gradients of the ICAO standard give, plus the offset; the pressure is 101325 Pa at sea level, positive, does not depend on the offset, is continuous at the bases of the layers and satisfies dp/dh = -g0 rho inside them. standard_atmosphere(z, offset) is the same at the geopotential altitude E z/(E + z), is defined for 0 <= z <= 80 km, and satisfies dp/dz = -g(z) rho with gravity by the inverse square law.", "quantifier": "all altitudes and temperature offsets", "why_tests_cant": "a test compares a few altitudes with a printed table to some digits; the differential equation and the continuity at the bases are statements about all altitudes", "anchors": ["src/standard_atmosphere.cpp:8-45", "include/standard_atmosphere.hpp:9-19", "include/constants.hpp:44-88"]}
{"id": "C100", "title": "Pressure decreases with altitude", "statement": "The pressure returned by standard_atmosphere_geopot is strictly decreasing in the altitude.", "quantifier": "all altitudes from 0 to 80 km and all temperature offsets", "why_tests_cant": "the altitudes where it fails are intervals of 1e-10 m length", "anchors": ["src/standard_atmosphere.cpp:31-41"]}
{"id": "C101", "title": "Integrals over the flow field are exact and see conservation", "statement": "Solver::integral_field returns one number per integrand variable: the sum over all Cartesian and deformed elements of the quadrature of the integrand times the volume. On a mesh of unsnapped two- or three-dimensional elements given by their vertices, after calc_jacobian, it is exactly the integral over the elements (transformed to the unit cube by the multilinear map of each element) of any integrand that is a polynomial of degree at most 2*row_size - n_dim in each reference coordinate. In two dimensions the integral of 1 is the sum of the areas of the quadrilaterals. Without local time steps, a convective update changes the integral of a conserved variable by the time step times the flux through the boundary and by nothing else.", "quantifier": "all meshes (also with hanging nodes), row sizes, numbers of variables, Gauss-Legendre rules; all polynomial integrands; for conservation all states, fluxes and time steps", "why_tests_cant": "a test integrates a few functions over a few meshes; an error that cancels on parallelograms or vanishes for low degrees is not seen", "anchors": ["src/Solver.cpp:1113-1131", "src/Deformed_element.cpp:164-167", "include/Element.hpp:99"]}
{"id": "C102", "title": "Integrals over boundaries", "statement": "Solver::integral_surface sums over exactly the boundary connections of the requested boundary condition the quadrature over the face of the integrand times the length of the normal; in two dimensions, after calc_jacobian on unsnapped elements, the integral of 1 is the total length of the edges of the elements on that boundary.", "quantifier": "all meshes, boundary conditions, integrands, row sizes; for the length all two-dimensional meshes of elements given by their vertices, with hanging nodes", "why_tests_cant": "a test has one geometry and one assignment of boundary conditions", "anchors": ["src/Solver.cpp:1133-1169"]}
{"id": "C103", "title": "Structured expressions are parsed into their assignments and evaluated in order", "statement": "For every code made of statements separated by `;` or newlines, each an assignment `name = expression` (with both sides nonempty, blanks around them allowed) or text without `=`, Struct_expr::names and Struct_expr::exprs are the left and right sides of the assignments in order, without surrounding blanks; the constructor throws exactly if a name contains `$`. Whenever the constructor returns, names and exprs have the same length. Struct_expr::eval executes the assignments one after the other, each in the state of the interpreter left by the one before, returns the value that each variable has directly after its assignment, and is free of undefined behaviour if the interpreter is.", "quantifier": "all ASCII codes of that form; for the lengths and eval all codes; all interpreters", "why_tests_cant": "the test has one code with three assignments; an error in separators, nested `=` or the order of execution needs another", "anchors": ["src/Struct_expr.cpp:7-43", "include/Struct_expr.hpp:16-24"]}
{"id": "C104", "title": "Malformed structured expressions are rejected", "statement": "Constructing a Struct_expr from any ASCII text either succeeds or throws an exception; it has no undefined behaviour.", "quantifier": "all ASCII texts", "why_tests_cant": "a test tries a few malformed inputs, and undefined behaviour need not be visible", "anchors": ["src/Struct_expr.cpp:7-31"]}
{"id": "C105", "title": "The linearized equation's vectors, inner product and state", "statement": "In Solver::Linearized, scale and add compute the combination of the vectors as they were before the call, also if output and inputs coincide, and change no other vector; inner is symmetric, linear and positive definite for positive quadrature weights and reference state. matvec puts the working state back to the linearization point and changes no vector except its output and the working data of the explicit update; the constructor leaves the state unchanged, records it as the linearization point and sets the solution to 0.", "quantifier": "all numbers of vectors within the storage, all coefficients, states, numbers of elements and variables; every explicit update that touches only its own working data", "why_tests_cant": "the tests have no case for this class; an aliasing error shows only for coinciding vectors and a state that is not restored only in the next evaluation", "anchors": ["src/Linearized.cpp:6-84", "include/Solver.hpp:63-86", "include/Linear_equation.hpp:17-19"]}
{"id": "C106", "title": "The linearized equation is the documented one", "statement": "Solver::Linearized::matvec evaluates A x = (F(u) - F(u + eps*x))/eps for the residual F, so it vanishes for x = 0; vector 1, the right hand side, is the residual at the linearization point; the reference for the momentum is the magnitude of the freestream momentum.", "quantifier": "all states, updates and vectors", "why_tests_cant": "the tests have no case for this class", "anchors": ["src/Linearized.cpp:10-23", "src/Linearized.cpp:72-84", "include/Solver.hpp:79-85"]}
{"id": "C107", "title": "Doublet is the isentropic flow around a cylinder", "statement": "Doublet::operator() throws for one-dimensional states. Otherwise, away from the center and wherever it returns numbers: the velocity in the plane is the gradient of the potential V.r(1 + R^2/r^2) and is also derived from the stream function (V x r)(1 - R^2/r^2), so that it has neither vorticity nor divergence; on the circle of the given radius the momentum is tangential; without axial velocity the total enthalpy and the entropy p/rho^gamma are those of the freestream everywhere; outside of the cylinder the state has positive density and pressure if the square of the freestream Mach number is less than 2/(3(gamma-1)); far away the state tends to the freestream.", "quantifier": "all freestreams with positive density and pressure, radii, locations, positions off the center, heat ratios > 1", "why_tests_cant": "the test evaluates four angles on the circle and far away, with the pressure within 1 % of the incompressible one; the thermodynamics between is not checked", "anchors": ["src/Spacetime_func.cpp:55-100", "include/Spacetime_func.hpp"]}
{"id": "C108", "title": "The axial velocity does not affect Doublet", "statement": "For a three-dimensional freestream with axial velocity, which src/Spacetime_func.cpp:65 says does not affect the flow field, Doublet::operator() returns states with the axial velocity of the freestream.", "quantifier": "all three-dimensional freestreams and positions", "why_tests_cant": "the test is two-dimensional", "anchors": ["src/Spacetime_func.cpp:65", "src/Spacetime_func.cpp:76"]}
{"id": "C109", "title": "The indicators of Element_func measure the part of highest degree", "statement": "Elem_nonsmooth returns, for each variable, the square root of the mean over the directions of the mean square, over the rows in that direction, of the part along the mode of highest degree. Its square is between 0 and the mean square of the values; it is 0 exactly if in each direction the values are those of polynomials of degree less than row_size - 1. Elem_average is between the least and the greatest value, and its magnitude is at most Elem_l2, in any element of positive Jacobian determinant. Normalized_nonsmooth of an undeformed element, of values that are not all 0, is between 0 and 1, is 0 exactly for the smooth values, and does not change if all values are multiplied by the same nonzero number.", "quantifier": "all dimensions, row sizes >= 2, rules as exact as those of Gauss and Lobatto, values, and (average) positive determinants", "why_tests_cant": "the tests evaluate a few functions on particular elements; bounds and the converse (only smooth values give 0) range over all values", "anchors": ["src/Element_func.cpp:34-104", "include/Element_func.hpp", "src/Basis.cpp"]}
{"id": "C110", "title": "Bounds of the stabilizing artificial viscosity", "statement": "stabilizing_art_visc sets a viscosity between 0 and (row_size - 1) * char_speed * nominal_size in every element; it is 0 if in each direction the specific volume is that of polynomials of degree less than row_size - 1; it does not change if the density is multiplied by a nonzero number; it does not decrease if the fraction of the mean square of the specific volume in the highest mode increases; and with two nodes per row it never exceeds half of char_speed * nominal_size, because the ramp is centered at a fraction of 1.", "quantifier": "all dimensions, row sizes >= 2, rules as exact as those of Gauss and Lobatto, states (with nonzero density for the last claims), speeds and sizes >= 0", "why_tests_cant": "no test covers the numbers; range, monotony and invariance are about all states", "anchors": ["src/stabilizing_art_visc.cpp:8-60", "include/stabilizing_art_visc.hpp"]}
{"id": "C111", "title": "filter_limit limits the modes as documented", "statement": "filter_limit replaces each Legendre mode of the data by one of the same sign whose magnitude is the lesser of its own and decay_rate^degree times the norm of the data, where the degree is the sum of the degrees in the coordinates; so modes within the bound are kept. Hence: if decay_rate >= 1 the data are not altered; if decay_rate = 0 every value becomes the mean of the data; the mean is conserved; the norm does not increase; and multiplying the data by a number multiplies the result by it.", "quantifier": "all dimensions >= 1, row sizes >= 2, rules as exact as those of Gauss and Lobatto, data, decay rates >= 0", "why_tests_cant": "the test filters one function with one decay rate; that no data at all are altered by a rate of 1 needs completeness of the modes", "anchors": ["src/filter_limit.cpp:8-28", "include/filter_limit.hpp:10-19"]}
{"id": "C112", "title": "The elementwise artificial viscosity is bounded, continuous, and at least that of each element", "statement": "The viscosity that update_art_visc_elwise computes for one element is between 0 and width / (row_size - 1) times the sum of the flow speed and the speed of sound, does not decrease when the nonsmoothness increases, is 0 for a smooth element and, for row size 2, is full when the nonsmoothness is at least 10^(-7/4). The values written at the quadrature points are those of the multilinear function of the values at the vertices and are between their bounds. The multilinear functions of two elements agree on a common face with the same vertex values. With vertex values shared by the maximum, in any order of the loops, each quadrature point has at least the viscosity of its own element and at most the greatest of the elements that touch it.", "quantifier": "all dimensions >= 1, row sizes >= 2, widths and speeds, indicators, nodes in [0, 1], all vertex values; all sequences of creating, eating and destroying vertices and all orders of the parallel loops", "why_tests_cant": "the property that no quadrature point has less viscosity than its element depends on the whole sharing of vertex data, in every order", "anchors": ["src/Solver.cpp:584-635", "src/Solver.cpp:638-658"]}
{"id": "C113", "title": "The smoothness-based artificial viscosity is bounded and leaves the flow state as it was", "statement": "update_art_visc_smoothness replaces momentum by a velocity whose magnitude is less than 1 exactly where the pressure is positive (given positive density and energy); afterwards the whole flow state is as before. The forcing is not negative, and where the smoothed forcing is not negative the viscosity is at least 0, less than the greatest viscosity (av_unscaled_max times the advection length and sqrt(2 energy / density) of the freestream), at most av_visc_mult times the advection length times the forcing, and does not decrease when the forcing increases.", "quantifier": "all dimensions, numbers of quadrature points, states with positive density and energy, and all results of the advection and diffusion in between", "why_tests_cant": "bounds and restoration must hold whatever the advection and the diffusion compute; a test sees one of them", "anchors": ["src/Solver.cpp:457-575"]}
{"id": "C114", "title": "is_admissible decides admissibility", "statement": "thermo::admissible is true exactly if all values are finite and all densities and energies are positive, false exactly if all are finite but not all densities and energies positive, and throws exactly if a value is not finite. Solver::is_admissible is true exactly if this holds in all elements, on all their faces and on all fine faces of refined faces (one per subset of the dimensions that are not stretched); it sets record to 1 in exactly the elements that are not admissible inside or on a face and to 0 in the others; it throws only if a value is not finite.", "quantifier": "all dimensions >= 1, row sizes >= 1, meshes, values of the state including infinities and NaN", "why_tests_cant": "exactness over all positions of a bad value among elements, faces and fine faces, including nonfinite ones", "anchors": ["src/thermo.cpp:6-18", "src/Solver.cpp:921-959", "include/Solver.hpp:181"]}
{"id": "C115", "title": "Admissibility is restored by smearing until half of the states have been admissible", "statement": "Solver::fix_admissibility does nothing and returns false if it is switched off or the flow is admissible. Otherwise, if it returns, it returns true and has made 2i smearing steps, where i is the least number such that the states i, ..., 2i-1 are admissible; it returns if there is such an i with 2i <= 1e5 (and the check does not throw before). If smearing keeps admissible flows admissible, the flow returned is admissible, and 2i steps are made if the i-th state is the first admissible one. The coefficients of the smearing are between 0 and 1, are 1 in all elements that are not admissible and those that touch them, and 0 in all that do not touch such an element.", "quantifier": "all flows and all functions in place of the check, the coefficients and the smearing; for the coefficients all sequences of operations on vertices, all records and all orders of the parallel loops", "why_tests_cant": "the number of iterations is unbounded in advance, and relapses of any pattern reset the count", "anchors": ["src/Solver.cpp:961-1095", "doc/parameters.dox:260-265"]}
{"id": "C116", "title": "Restoring admissibility leaves the artificial viscosity as it was", "statement": "After Solver::fix_admissibility the bulk and the Laplacian artificial viscosity coefficients of all elements are what they were before.", "quantifier": "all flows, coefficients and functions in place of check and smearing", "why_tests_cant": "needs a flow that becomes inadmissible during a run with artificial viscosity", "anchors": ["src/Solver.cpp:1019-1086", "include/pde.hpp:152", "src/Solver.cpp:415-426"]}
{"id": "C117", "title": "Flow quantities of an ideal gas", "statement": "For the momentum, density and energy of an ideal gas with given velocity, density, pressure and heat capacity ratio, Velocity, Pressure and Mach return its velocity, its pressure and its speed over sqrt(heat_rat * pressure / density), and Stag_pres returns pressure * (1 + (heat_rat - 1)/2 Mach^2)^(heat_rat/(heat_rat - 1)), which is at least the pressure, with equality exactly at rest.", "quantifier": "all dimensions, velocities, densities > 0, pressures > 0, heat capacity ratios > 1", "why_tests_cant": "tests compare single states", "anchors": ["src/Domain_func.cpp:71-125", "include/Domain_func.hpp:69-135"]}
{"id": "C118", "title": "Forces on surfaces", "statement": "On a boundary face, Pressure_stress is the pressure times minus the unit normal that points out of the surface into the domain. Viscous_stress is the momentum flux (flux_cache) that leaves the domain per unit of area (the force on the surface); HIL gets the same as visc_stress, the unit normal into the domain as normal, and the heat that leaves the domain (enters the wall) as heat_flux; all for either sign of the face and normals longer than 1e-3; for shorter normals, and in HIL for inviscid flow, stress and heat flux are 0.", "quantifier": "all dimensions, faces of either sign, normals, states with positive density, fluxes", "why_tests_cant": "there is no test of the viscous stress; the sign depends on the side of the element on which the wall is", "anchors": ["src/Surface_func.cpp:11-49", "src/Boundary_func.cpp:19-39", "src/hil_properties.cpp:53-88", "doc/parameters.dox:76"]}
{"id": "C119", "title": "Heat_flux is the heat flux into the surface", "statement": "Heat_flux returns the energy flux (flux_cache) that leaves the domain and enters the surface per unit of area, as documented, like heat_flux in HIL and the heat flux that a boundary condition prescribes.", "quantifier": "all dimensions, faces of either sign, normals longer than 1e-3, fluxes", "why_tests_cant": "no test evaluates Heat_flux", "anchors": ["src/Boundary_func.cpp:41-57", "include/Boundary_func.hpp:56", "src/hil_properties.cpp:69-87", "src/Boundary_condition.cpp:422-425"]}
{"id": "C120", "title": "Transport models", "statement": "Transport_model::coefficient of the square root of the temperature is 0 for inviscid, the value given for constant, and Sutherland's law mu0 (T/T0)^(3/2) (T0 + S)/(T + S) for sutherland, which is mu0 at T0 and increases with temperature.", "quantifier": "all temperatures >= 0 (> 0 for Sutherland), reference values, reference temperatures > 0 and offsets >= 0", "why_tests_cant": "tests evaluate single temperatures", "anchors": ["include/Transport_model.hpp:14-51"]}
{"id": "C121", "title": "Header and report of the iteration status line up", "statement": "Iteration_status::header returns the labels and report returns the values, each right-justified in columns of width() characters with sep between them and none at the end, so that column i starts at the same character in both lines; with the defaults each of the nine quantities stands below its own label and both lines have 151 characters. width() is the greatest of number_width and the lengths of the labels.", "quantifier": "all layouts (sep, number_width, labels) with at least one label and a width of at most 99, all values whose text is at most width() characters long, one per label", "why_tests_cant": "a test prints a few numbers with one layout", "anchors": ["include/Iteration_status.hpp:24-65", "src/Iteration_status.cpp:6-43"]}
