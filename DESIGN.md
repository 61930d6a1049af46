# Formal model of hexed: design

The source under study is /repo (C++ CFD solver `hexed`), read as text only.
The model and proofs are Coq 8.16.1 files under `rocq/theories` (logical prefix `Verif`).

## 1. Method

* One directory-less family of files per area `X`:
  `X_Model.v` (executable Gallina definitions, each with a comment citing the file and lines it models
  and naming every simplification), `X_Spec.v` (the small independent specification, when the statement
  needs vocabulary beyond the standard library), `X_Proofs.v` (lemmas) and `X_Thm.v` (only the property
  theorems, each closed by `exact`, each followed by `Print Assumptions`, and the non-vacuity examples).
* Undefined behaviour (empty-list `front()`, index out of range, int overflow, ...) is a distinct outcome in the
  model (`None`, `Ub`, ...), never totalised silently. Exceptions are another distinct outcome.
* Loops whose termination is not structural run on explicit fuel; running out of fuel is a distinct outcome and
  theorems either exclude it by proving enough fuel exists or quantify over it.
* C++ `int` is modelled as `Z`; where overflow matters the 32-bit range check is in the model.
* C++ `double` is modelled as the real numbers `R` (or an arbitrary ordered field / an abstract type where only the
  algebra matters). Rounding is *not* modelled; every theorem over `R` is about exact arithmetic.
* If the unchanged code violates a property, the theorem is named `..._refuted` and proves the existence of a
  violating input of the model; the finding is recorded in section 4. If only a restricted form holds it is named `..._partial`.

## 2. Plan per property

| id | what is modelled | how it is proved |
|----|------------------|------------------|
| C01 | the string-literal loop of `Interpreter::_eval` as a function on character lists with depth and backslash flag | induction on the string, for the escaping function and for balanced text |
| C02 | whole `_eval` (fuelled, on a character list), operator tables, values int/double/string with doubles abstract | induction on expression trees with a printing relation; precedence climbing invariant |
| C03 | `_substitute` in the same model | equational: evaluation of `$e t` and of `value ++ t` |
| C04 | `Namespace` as three finite maps plus Heisenberg flag | invariant by induction over operations |
| C05 | hierarchy of namespaces as a finite tree | refutation for several super-namespaces, positive theorem for single chains of depth one, exact lookup order |
| C06 | as C02 | refuted with a witness; positive theorem for second statements not starting with an operator character |
| C07 | as C02, with `Ub` outcome for access to an empty buffer | invariant "text ends with NUL"; refuted for `exit` |
| C08-C10 | `Tree` as inductive type with coordinates computed from the path, point location over `Z`/`R` coordinates | structural induction, invariant over refine/unrefine histories |
| C11 | `flood_fill` as recursion with status map over paths | reachability, fuel measure = number of unprocessed leaves |
| C12 | serialisation of trees to the table and back | induction on trees |
| C13 | heap of mutual pointers, operations construct/pair/unpair/move/destroy | invariant over histories |
| C14 | heap of vertices and handles | invariant over histories |
| C15, C16 | vector + map container; swap-and-shrink loop of `erase_if` | invariant over histories; list induction |
| C17 | sequence views as (size, index function) pairs | induction over the parts |
| C18, C19 | direction structures, vertex lists, permutation of matrices of any row size | finite case analysis for directions, index algebra for all row sizes |
| C20 | stride arithmetic of `Row_index`, row read/write | `nia`/`lia`, bijection |
| C21 | offsets and sizes as functions of the parameters | arithmetic |
| C22 | `History_monitor` on lists | invariant over sample sequences |
| C23, C24, C43 | `Simplex_geom`, `Nearest_point`, projections, in R^n | real analysis by `nra`; C24 refuted for simplices in large trees |
| C25, C26 | `pde.hpp` and boundary-condition formulas over R | `field`, derivatives by Coquelicot |
| C27 | all kernels of `Spatial.hpp` and the order in which `kernels_convective.cpp`, `kernels_diffusive.cpp` call them, over a mesh of elements, connections and hanging-node faces | the sum over all points of weight times volume times state is followed through every kernel; finite-sum algebra |
| C28 | Lagrange interpolation over a field (mathcomp polynomials or R) | polynomial identity by roots |
| C29 | the index enumeration loop | list induction |
| C30, C31, C42 | the loops in math.hpp | loop invariants |
| C32 | GMRES/BiCGStab loops over an abstract vector space | loop invariant |
| C33 | stopwatch automaton | induction over histories |
| C34 | closed formulas over R | sum of geometric series; expected refutation of the total height |
| C35 | face-connection counters | counting lemmas |
| C36 | refined-connection constructor, writer and reader permutations | refutation by finite computation, positive theorem for trivial permutations |
| C37, C38 | the loops with oracle answers | refutations plus what does hold |
| C39, C74-C77 | `Accessible_mesh::update` up to the end of smoothing, on the tree of C08 and a list of elements | invariant of tree and elements through every loop; the number of nodes of bounded level decreases for termination; counterexamples by computation |
| C40 | vertex max/min reduction | permutation invariance of folds |
| C41 | parser on characters | refutation for ragged input, round trip for rectangular input |
| C44 | as C11 | refutation of the documented behaviour by computation; what is filled, exactly |
| C45-C48 | face numbering, `kernel_factory`, `Refined_connection`, `Hanging_vertex_matcher` | enumeration of the finite cases, index algebra |
| C49 | as C34 | closed formulas |
| C50, C51 | as C06, C07 | the parts of C06 and C07 that hold without restriction |
| C52, C53 | as C14 | invariant over histories |
| C54 | as C24 | soundness, and completeness below unit size |
| C55 | as C25 | derivative of the flux, eigenvectors |
| C56, C57 | `Characteristics` ghost state and flux | algebra; refutation of the vanishing flux |
| C58 | as C41 | refutations by computation; termination when lines are ended and long enough |
| C59-C63 | as C32, with division by zero as a separate outcome and the vector storage counted | Krylov space invariants |
| C64-C67 | as C37, C38 | loop invariants; trigonometry for the Chebyshev steps |
| C72, C73 | as C35, with the storage the face pointers point into | invariant over histories of calls |
| C78-C80 | `delete_bad_extrusions` and `deform` on the state of the mesh updates, for every order of the elements | number of elements not marked decreases; induction over sweeps; least fixed point |
| C81-C83 | `connect_new`, `purge` and the whole of `update` and `set_surface` as far as they concern the elements of the tree; connections are a list, face pointers are flags | invariant: every face with elements or the boundary behind it has exactly one connection, which is right; geometry of neighbours in the tree |
| C84, C85 | `extrude` (which elements it makes and their connections with the elements they are extruded from), `connect_rest`, `disconnect_boundary` and `split_layers` on top of C81-C83; how extruded elements are connected with each other is a parameter | the invariant of C83 through every loop; with tree elements closed, `connect_rest` makes boundary connections of extruded elements only. C85 refuted by computation |
| C86 | the kernels of Spatial_Model with `initialize`, the Freestream condition and the two stages of a time step; `euler` is the inviscid PDE of include/pde.hpp | every face holds the flux of the uniform state through its normal (`carries`), through connections of all directions and mortars; the derivative of a flux that is linear in the normal is zero where the normals close; on Cartesian meshes the rows of both restriction matrices sum to 1 |
| C87-C90 | `Deformed_element::position`, `set_jacobian` of both kinds of elements and all steps of `Solver::calc_jacobian` on the meshes of Spatial_Model; the positions of vertices and the adjustments of nodes are inputs | C87: follow each face through the five steps (own normal, mortars, fine sides, ghosts, sharing); no geometry is needed. C88: in 2D the normals are first derivatives and discrete derivatives in different dimensions commute; in 3D the cofactors are quadratic in each coordinate, for which the derivative with face values is exact (summation by parts), and the divergence of the cofactors vanishes. C89: neighbours that share vertices have the same tangents on the face in all 48 directions, mortars have the tangents of the half element; then C86. C90: a frustum whose wall is bent by ξ-ξ² (which `snap_node_adj` gives and keeps) does not close with the four-point rule of Gauss and Legendre, because the rule does not integrate degree 8; with up to three points the product rule holds for the discrete derivative and all positions close |
| C91-C92 | `compute_flux_diff` and the transport models, the viscous time step and residual on the kernels of Spatial_Model, the flux boundary condition of Freestream, the pointers to face normals | C91: follow a constant through all steps of the diffusive kernels: averages on faces and mortars are the constant, the gradient is zero because the normals close (the elements must see the same normals as the fluxes), so the diffusive fluxes and all corrections are zero. C92: quotient rule along each axis gives the derivatives of velocity and temperature; dissipation is a sum of squares in each dimension |
| C93-C94 | `Deformed_element::position` with adjustments, `Element::face_position`, `Geom_mbc::snap_node_adj`; the surface is any pair of functions | C93: unfold the contractions, index arithmetic by cases. C94: the adjustments are a polynomial of degree one less than the basis allows and the lines across the element are linear along the face, so the product is represented exactly; interpolation of polynomials in several coordinates is exact, hence the face in the Lobatto points is the spanned point plus the adjustment times the line; the loop over intersections keeps the nearest; derivatives from the differentiation matrix are true derivatives |
| C95-C96 | the sweeps of `Solver::snap_faces` on the meshes of Spatial_Model, with the kernels of that model | the displacement of a wall is a polynomial in the coordinates along it; the kernels put the average of the values of both sides into the LDG data of the faces; replacing the end values of the polynomial in Lobatto form by them changes nothing if they agree, and sets the ends otherwise. C96: two families of meshes, for all row sizes, on which walls that meet are changed |
| C97-C98 | `Vis_data` (interior, face, edges, sample, constructor) with the tensor products of Tensor_Model, `Solver::bounds_field` | every sample is the value of the one polynomial through the values in the quadrature points, at the documented point; bounds are attained extremes of the samples |
| C99-C100 | `standard_atmosphere`, `standard_atmosphere_geopot` | the loop multiplies in the factor of every layer passed; each factor solves the hydrostatic equation with the temperature of its layer; derivatives are local. C100: 1e-10 m below a base the pressure jumps up |
| C101-C102 | `Solver::integral_field`, `integral_surface` | the nested loops are sums; the determinant of the map of an element given by its vertices has degree `n_dim - 1` in each coordinate, so the rule integrates polynomial integrand times determinant exactly, coordinate by coordinate; the difference of two integrals of the state is the `change` of Spatial_Spec. The normal of a boundary connection is the element's own (Jac_Proofs3), whose length is that of the edge |
| C103-C104 | `Struct_expr` | statement by statement: `find` of a separator splits off the first statement, trimming a side that has a nonblank character stops at the word; conversely every ASCII code decomposes into statements, and one side without a nonblank character makes the trimming run into the empty string |
| C105-C106 | `Solver::Linearized` | the operations are pointwise, so the vectors after a call are read off; the update is any function that keeps the linearization point and the vectors from 0 on |
| C107-C108 | `Doublet` | `r cos(atan2 y x) = x` and `r sin(atan2 y x) = y` turn the polar components into a closed form, whose potential and stream function are differentiated; the disturbance is the freestream velocity reflected and scaled by R^2/r^2, which bounds the speed and gives the far field |
| C109-C110 | `Smooth` | the discrete Legendre modes are orthonormal (area Quad), hence independent and complete on a row; the highest is orthogonal to lower powers by the three-term recurrence, as far as the rule is exact; the sums over rows are rearrangements of the sum over points; the ramp is monotone since the sine is on [-pi/2, pi/2] |
| C111 | `Filter` | the products of the modes are orthonormal and complete: a sum over all points of products over their digits is the product of the sums; hence Parseval, and the result has exactly the limited coefficients |
| C112-C113 | `Artvisc` | hypercube_matvec by the matrix of the two linear functions is the multilinear function (Tensor), a convex combination; with vertex_sharing (Vertex) hence the bounds over the elements that touch; the smoothness-based viscosity for arbitrary functions in place of the advection and diffusion |
| C114-C116 | `Admis` | the loops of checks are conjunctions that stop at the first failure; the loop that restores admissibility has the invariant that no earlier half of states was admissible throughout; two sharings (Vertex) and the multilinear function (Artvisc) for the coefficients |
| C117-C120 | `Gas` | algebra from the conserved variables of an ideal gas and from the flux along the (not normalized) normal of a face |
| C121 | `Report` | cells of equal length are found again by slicing the joined line; the separators popped at the end are exactly the last one |
| C68-C71 | `script/Basis.py`, the generated functions and `Derivative.hpp` | Lagrange polynomials, exactness of the rule |

## 3. Trusted base

### 3.1 What has to be trusted

* The kernel of Coq 8.16.1 and the notations of the standard library used in the statements. No kernel check is switched
  off, no native or VM computation from plugins is used beyond `vm_compute` of the kernel. The development declares no axiom, no
  section-less `Variable`, no module type or functor.
* The axioms of the standard library that `Print Assumptions` lists (section 3.4). They enter only through the real numbers
  (`Coq.Reals`), functional extensionality for vectors modelled as functions, and lemmas of Coquelicot that rest on them.
* The correspondence between the definitions of the `*_Model.v` files and the source, which is by reading. Every
  definition cites the file and lines.
* The specifications: the statements in `*_Thm.v` and the vocabulary of `*_Spec.v`. They do not use helpers of the model,
  only its types and the modelled functions themselves.

### 3.2 What is modelled

| model file | source | idealisations |
|---|---|---|
| Atmos_Model | src/standard_atmosphere.cpp | exact real arithmetic; `exp` and `pow` are the real functions |
| Basis_Model | src/Basis.cpp, src/Equidistant.cpp | exact real arithmetic |
| Bc_Model | flow boundary conditions of src/Boundary_condition.cpp | exact real arithmetic |
| Connection_Model | directions, vertex lists, `Face_permutation`, `Refined_connection`, `Hanging_vertex_matcher` | dimensions 1 to 3; `Vertex::eat` is in Vertex_Model |
| Container_Model | element containers, `erase_if`, sequence views | fewer than 2^31 calls |
| Csv_Model | src/read_csv.cpp | file content given; `std::stod` is any function |
| Factory_Model | include/kernel_factory.hpp | |
| Extr_Model | src/Accessible_mesh.cpp:240-244, 334-616, 618-632, 704-727, 1129-1319; include/Mesh_by_type.hpp:149-190; src/Case.cpp:291-302 | as Join_Model; the connections of extruded elements with each other (lines 363-388, 429-437, 509-615) are any connections of faces of extruded elements that have none; positions and records are left out |
| GeomPred_Model | include/math.hpp:220-287 | exact real arithmetic |
| Hil_Model, Namespace_Model | src/Interpreter.cpp, include/Interpreter.hpp, include/Namespace.hpp | doubles, files, shell and callbacks are an arbitrary host; one thread |
| History_Model | History_monitor | exact real arithmetic |
| Iter_Model | src/iterative.cpp, Linear_equation | exact reals plus "not finite"; Eigen's QR is any least-squares solver |
| Join_Model | src/Accessible_mesh.cpp:673-683, 704-725, 742-812, 1102-1113, 1129-1316; include/Mesh_by_type.hpp:194-215; constructors and destructors of include/connection.hpp | as Update_Model and Trim_Model; connections of all containers in one list; of the face pointers only whether they are null; vertices and normals are left out; connections of extruded elements may be present but are not made |
| Layer_Model | src/Layer_sequence.cpp | exact real arithmetic |
| March_Model | src/Solver.cpp:834-886, 961-1095, `math::chebyshev_step` | numerical kernels are arbitrary functions |
| Math_Model | `math::pow`, `math::log`, `math::bisection` and other integer helpers | overflow is undefined behaviour |
| Mutual_Model | include/Mutual_ptr.hpp | heap of objects |
| Mesh_Model | include/Mesh_by_type.hpp, src/Accessible_mesh.cpp:139-277, 619-634, 1102-1117, 1500-1806, constructors and destructors of include/connection.hpp | vertices and the tree are left out (C12, C14, C47), except that the tree decides which boundary faces are covered; no overflow of `int` |
| Pbasis_Model | src/Physical_basis.cpp without `std::legendre` and projection | |
| Pde_Model | Navier-Stokes inviscid flux, characteristics, of include/pde.hpp | QR of Eigen is an exact solver |
| Quad_Model | script/Basis.py, functions written by script/auto_generate.py, include/Derivative.hpp | quadrature rules are arbitrary; numbers are not rounded |
| Row_Model | include/Row_index.hpp, include/Row_rw.hpp | |
| Simplex_Model | include/Simplex_geom.hpp, src/Simplex_geom.cpp, include/Nearest_point.hpp | exact real arithmetic; LU of Eigen is an exact solver |
| Spatial_Model | include/Spatial.hpp, src/kernels_convective.cpp, src/kernels_diffusive.cpp | loops over elements run in order; arrays are functions |
| Free_Model | src/Solver.cpp:56-67, 391-401, 853-867, 899-913; include/pde.hpp:41-180 without viscosity | the initial condition is constant, all boundaries are Freestream, the time steps are inputs, `fix_admissibility` does nothing |
| Jac_Model | src/Deformed_element.cpp:16-117, src/Element.cpp:99-112, src/Solver.cpp:273-357 | exact real arithmetic; the determinant of Eigen is expanded; positions of points are inputs of `calc_jacobian`; the copies of the normals that `Deformed_element::face_normal` points to are in Visc_Model |
| Visc_Model | include/Transport_model.hpp, include/pde.hpp:124-165, src/Solver.cpp:69-81, 346-366, 853-867, 899-913, include/connection.hpp:137-148, 292-301, 388-392 | as Free_Model; the ghost state that `copy_state` also copies is left out, it is overwritten before it is read |
| Snap_Model | src/Element.cpp:73-97, src/Boundary_condition.cpp:508-586 | exact real arithmetic; `intersections` and `nearest_point` are any functions of points; the nodes of the Lobatto rules are inputs; `needs_snapping` and whether the element has adjustments are inputs; the finiteness assertion always holds |
| Sweep_Model | src/Solver_snap_faces.cpp:21-116 | exact real arithmetic; the nodes of the Lobatto rules are inputs; the walls are the boundary connections of the surface whose elements have adjustments, at most one per element in the theorems; `hang` are the connections the loop of lines 62-73 goes over; the copying boundary condition applies to state and LDG data |
| Integral_Model | src/Solver.cpp:1113-1169 | exact real arithmetic; integrands are functions of the element (or boundary connection) and the quadrature point, so what they read and the extrapolation to the faces before surface integrals (`compute_write_face`, modelled in Spatial_Model) are not part of it; the serial number and the element of a boundary connection are fields of the record |
| Expr_Model | src/Struct_expr.cpp:7-43 | iterators are the remaining text; `front()`/`back()` of an empty string and `isspace` of a negative char are undefined behaviour; the interpreter is an arbitrary pair of functions `exec` and `lookup` |
| Linearized_Model | src/Linearized.cpp, include/Solver.hpp:63-86 | exact real arithmetic; the vectors are functions of element and degree of freedom, at least one element; the explicit update and the filling of faces are any functions of the data, with the vectors that they keep assumed in the theorems (`keeps_vectors`, `keeps_upper`) |
| Doublet_Model | src/Spacetime_func.cpp:55-100 | exact real arithmetic with the real square root, trigonometric functions and power; `pow` of a negative base makes the state not-a-number; the center is excluded in the theorems |
| Smooth_Model | src/stabilizing_art_visc.cpp:8-60, src/Element_func.cpp:34-104 | exact real arithmetic; one element and one variable at a time; the logarithm of 0 is minus infinity; the basis is given by its weights and highest mode |
| Filter_Model | src/filter_limit.cpp:8-28 | exact real arithmetic; the basis is given by its weights and modes |
| Artvisc_Model | src/Solver.cpp:457-575, 584-635 (not based on a PDE), 638-658 | one element; exact real arithmetic, log 0 = minus infinity; advection and diffusion are arbitrary functions that do not write the flow state; matching of hanging vertices not modelled |
| Admis_Model | src/thermo.cpp:6-18, src/Solver.cpp:921-959, 961-1095 | doubles are real numbers, infinities or NaN; check, coefficients and smearing kernels of the loop are arbitrary functions; the coefficients are modelled apart (998-1018), hanging vertices not matched; messages and output left out |
| Gas_Model | src/Domain_func.cpp:33-125, src/Surface_func.cpp:11-49, src/Boundary_func.cpp:19-57, src/hil_properties.cpp:53-88, include/Transport_model.hpp:14-51 | exact real arithmetic; vectors are functions with their sizes; of the HIL variables of a surface only normal, visc_stress and heat_flux |
| Report_Model | include/Iteration_status.hpp:24-65, src/Iteration_status.cpp:6-43 | texts are lists of characters; numbers are given as the text printf makes of them without a width; overriding value_string is modelled by giving the columns; the clock (set_time, start_time, wall_time) is not modelled |
| Vis_Model | src/Vis_data.cpp:7-111, src/Solver.cpp:1171-1191 | exact real arithmetic; the Qpoint_func is a function from quadrature points to vectors; the entries of `sample` are modelled one by one (they are independent); not modelled: compute_contour (116-261) |
| Stopwatch_Model | Stopwatch | clock readings are inputs |
| Storage_Model | Storage_params, layout of Element, connections and PDEs | no overflow of `int` |
| Tensor_Model | src/math.cpp:19-92, include/math.hpp:207-218 | exact real arithmetic |
| Tree_Model | include/Tree.hpp, src/Tree.cpp | unbounded integers, exact rational positions |
| Trim_Model | src/Accessible_mesh.cpp:883-1100 | elements as in Update_Model; arbitrary order of the elements, one iteration is one step; which exposed faces point away from the surface is a predicate |
| Update_Model | src/Accessible_mesh.cpp:640-717, 814-881, 1102-1113, 1129-1297 | elements are numbers, the surface is a predicate on nodes; loops in order of their index except over the extrusion connections |
| Vertex_Model | src/Vertex.cpp, include/Vertex.hpp, vertex sharing of Element and Solver | addresses are never reused |

Every model file starts with the complete list of its simplifications.

### 3.3 What is not modelled

* Rounding, NaN and infinity of `double`, except where a model says so (division by zero in the linear solvers, NaN in
  the bisection).
* Data races. Loops that are parallel in the source are sequential in the model, except for the vertex sharing of C40,
  where every order of the single steps is covered.
* Accessible_mesh beyond elements, connections, their file format and refinement and deformed layer (the connections of extruded elements with each other, the positions of their vertices, snapping), except for its parts
  named in section 2;
  the mesh geometry beyond C87-C90 and C93-C96 (vertex snapping); Case and the flow of a whole run; output files (Xdmf, Tecplot) and contours; the
  advection and diffusion of the artificial viscosity and boundary conditions with a viscous flux other than Freestream beyond what C27 needs of them;
  the Python scripts other than the basis; the eigenvalue limits of the bases.
* Compilers, the build system, HDF5, Eigen, OpenMP, the standard library.

### 3.4 Print Assumptions per theorem

D = `ClassicalDedekindReals.sig_forall_dec`, N = `ClassicalDedekindReals.sig_not_dec`,
F = `FunctionalExtensionality.functional_extensionality_dep`, C = `Classical_Prop.classic` (all of the standard library).
The same output is printed by the build, since every theorem of a `*_Thm.v` file is followed by `Print Assumptions`.

<!-- assumptions -->
| theorem | file | property | assumptions |
|---|---|---|---|
| hil_literal | Hil_Thm | C01 | none |
| hil_literal_unique | Hil_Thm | C01 | none |
| hil_literal_escape | Hil_Thm | C01 | none |
| hil_literal_stored | Hil_Thm | C01 | none |
| hil_literal_unclosed | Hil_Thm | C01 | none |
| hil_operator_table | Hil_Thm | C02 | none |
| hil_decimal | Hil_Thm | C02 | none |
| hil_expression | Hil_Thm | C02 | none |
| hil_program | Hil_Thm | C02 | none |
| hil_macro | Hil_Thm | C03 | none |
| hil_macro_named | Hil_Thm | C03 | none |
| hil_conditional | Hil_Thm | C03 | none |
| hil_macro_blanks_refuted | Hil_Thm | C03 | none |
| namespace_one_type | Namespace_Thm | C04 | none |
| namespace_type_stable | Namespace_Thm | C04 | none |
| namespace_assign | Namespace_Thm | C04 | none |
| namespace_create | Namespace_Thm | C04 | none |
| namespace_read_back | Namespace_Thm | C04 | none |
| namespace_lookup_refuted | Namespace_Thm | C05 | none |
| namespace_exists_sound | Namespace_Thm | C05 | none |
| namespace_lookup_partial | Namespace_Thm | C05 | none |
| hil_sequence_partial | Hil_Thm | C06 | none |
| hil_sequence_refuted | Hil_Thm | C06 | none |
| hil_exit_partial | Hil_Thm | C07 | none |
| hil_exit_refuted | Hil_Thm | C07 | none |
| tree_find_leaf | Tree_Thm | C08 | none |
| tree_find_leaf_throws | Tree_Thm | C08 | none |
| tree_find_leaf_pos | Tree_Thm | C08 | none |
| tree_find_neighbors | Tree_Thm | C09 | none |
| tree_face_neighbors | Tree_Thm | C09 | none |
| tree_structure | Tree_Thm | C10 | none |
| tree_children_partition | Tree_Thm | C10 | none |
| tree_count | Tree_Thm | C10 | none |
| tree_refine_unrefine | Tree_Thm | C10 | none |
| tree_refine_nonleaf | Tree_Thm | C10 | none |
| tree_unrefine_leaf | Tree_Thm | C10 | none |
| atmosphere_decreasing_partial | Atmos_Thm | C100 | D N C F |
| atmosphere_decreasing_refuted | Atmos_Thm | C100 | D N C F |
| atmosphere_jump | Atmos_Thm | C100 | D N C F |
| integral_sum | Integral_Thm | C101 | D F |
| integral_exact | Integral_Thm | C101 | D N C F |
| integral_area | Integral_Thm | C101 | D N C F |
| integral_change | Integral_Thm | C101 | D F |
| integral_conserved | Integral_Thm | C101 | D N C F |
| integral_surface_sum | Integral_Thm | C102 | D N F |
| integral_length | Integral_Thm | C102 | D N C F |
| expr_parse | Expr_Thm | C103 | none |
| expr_lengths | Expr_Thm | C103 | none |
| expr_eval | Expr_Thm | C103 | none |
| expr_eval_defined | Expr_Thm | C103 | none |
| expr_malformed_refuted | Expr_Thm | C104 | none |
| expr_malformed_partial | Expr_Thm | C104 | none |
| linearized_vectors | Linearized_Thm | C105 | D |
| linearized_inner | Linearized_Thm | C105 | D F |
| linearized_state | Linearized_Thm | C105 | D F |
| linearized_start | Linearized_Thm | C105 | D F |
| linearized_operator_refuted | Linearized_Thm | C106 | D F |
| linearized_operator_partial | Linearized_Thm | C106 | D F |
| linearized_rhs_refuted | Linearized_Thm | C106 | D F |
| linearized_rhs_partial | Linearized_Thm | C106 | D F |
| linearized_reference_refuted | Linearized_Thm | C106 | D N F |
| linearized_reference_partial | Linearized_Thm | C106 | D N F |
| doublet_velocity | Doublet_Thm | C107 | D N C F |
| doublet_wall | Doublet_Thm | C107 | D N C F |
| doublet_thermodynamics | Doublet_Thm | C107 | D N C F |
| doublet_defined | Doublet_Thm | C107 | D N C F |
| doublet_far | Doublet_Thm | C107 | D N C F |
| doublet_line | Doublet_Thm | C107 | D N C F |
| doublet_axial_refuted | Doublet_Thm | C108 | D N C F |
| doublet_axial_partial | Doublet_Thm | C108 | D N C F |
| smooth_roughness | Smooth_Thm | C109 | D N C F |
| smooth_average | Smooth_Thm | C109 | D N F |
| smooth_normalized | Smooth_Thm | C109 | D N C F |
| tree_flood_fill | Tree_Thm | C11 | none |
| tree_flood_fill_throws | Tree_Thm | C11 | none |
| smooth_viscosity | Smooth_Thm | C110 | D N C F |
| smooth_viscosity_zero | Smooth_Thm | C110 | D N C F |
| smooth_viscosity_units | Smooth_Thm | C110 | D N C F |
| smooth_viscosity_monotone | Smooth_Thm | C110 | D N C F |
| smooth_viscosity_two | Smooth_Thm | C110 | D N C F |
| filter_modes | Filter_Thm | C111 | D N C F |
| filter_identity | Filter_Thm | C111 | D N C F |
| filter_constant | Filter_Thm | C111 | D N C F |
| filter_conserves | Filter_Thm | C111 | D N C F |
| filter_homogeneous | Filter_Thm | C111 | D N C F |
| artvisc_elwise | Artvisc_Thm | C112 | D N C F |
| artvisc_interpolated | Artvisc_Thm | C112 | D F |
| artvisc_continuous | Artvisc_Thm | C112 | D F |
| artvisc_spread | Artvisc_Thm | C112 | D F |
| artvisc_velocity | Artvisc_Thm | C113 | D N F |
| artvisc_restores | Artvisc_Thm | C113 | D N F |
| artvisc_bound | Artvisc_Thm | C113 | D N F |
| admis_check | Admis_Thm | C114 | D F |
| admis_flow | Admis_Thm | C114 | D F |
| admis_admitted | Admis_Thm | C114 | D F |
| admis_unchanged | Admis_Thm | C115 | none |
| admis_runs | Admis_Thm | C115 | none |
| admis_fixed | Admis_Thm | C115 | none |
| admis_coefs | Admis_Thm | C115 | D F |
| admis_viscosity_partial | Admis_Thm | C116 | none |
| admis_viscosity_refuted | Admis_Thm | C116 | D F |
| admis_laplacian_lost | Admis_Thm | C116 | none |
| gas_quantities | Gas_Thm | C117 | D N C F |
| gas_stagnation | Gas_Thm | C117 | D N C F |
| gas_pressure_stress | Gas_Thm | C118 | D N F |
| gas_stress | Gas_Thm | C118 | D N F |
| gas_heat_flux_partial | Gas_Thm | C119 | D N F |
| gas_heat_flux_refuted | Gas_Thm | C119 | D N F |
| tree_file_round_trip | Tree_Thm | C12 | none |
| gas_transport | Gas_Thm | C120 | D N C F |
| report_columns | Report_Thm | C121 | none |
| report_width | Report_Thm | C121 | none |
| report_default | Report_Thm | C121 | none |
| report_empty | Report_Thm | C121 | none |
| mutual_ptr_mutual | Mutual_Thm | C13 | none |
| mutual_ptr_safe | Mutual_Thm | C13 | none |
| mutual_ptr_pair | Mutual_Thm | C13 | none |
| mutual_ptr_unpair | Mutual_Thm | C13 | none |
| mutual_ptr_destroy | Mutual_Thm | C13 | none |
| mutual_ptr_move_construct | Mutual_Thm | C13 | none |
| mutual_ptr_move_assign | Mutual_Thm | C13 | none |
| mutual_ptr_partner_type | Mutual_Thm | C13 | none |
| mutual_ptr_get | Mutual_Thm | C13 | none |
| vertex_history | Vertex_Thm | C14 | D F |
| vertex_defined | Vertex_Thm | C14 | D F |
| vertex_handles | Vertex_Thm | C14 | D F |
| vertex_merge | Vertex_Thm | C14 | D F |
| vertex_merged_forever | Vertex_Thm | C14 | D F |
| vertex_mean | Vertex_Thm | C14 | D F |
| container_serial_numbers | Container_Thm | C15 | none |
| container_purge_report | Container_Thm | C15 | none |
| container_histories_run | Container_Thm | C15 | none |
| erase_if_keeps | Container_Thm | C16 | none |
| erase_if_pure | Container_Thm | C16 | none |
| vector_view_enumerates | Container_Thm | C17 | none |
| sequence_view_enumerates | Container_Thm | C17 | none |
| concatenation_enumerates | Container_Thm | C17 | none |
| index_enumerates | Container_Thm | C17 | none |
| connection_view_enumerates | Container_Thm | C17 | none |
| connected_vertices_glued | Connection_Thm | C18 | none |
| gluing_is_rotation | Connection_Thm | C18 | none |
| glued_by_rotation | Connection_Thm | C18 | none |
| flip_normal_points_across | Connection_Thm | C18 | none |
| cartesian_direction | Connection_Thm | C18 | none |
| face_partner_unique | Connection_Thm | C19 | none |
| match_faces_correct | Connection_Thm | C19 | none |
| rows_partition_element | Row_Thm | C20 | none |
| row_points_unique | Row_Thm | C20 | none |
| write_row_only_row | Row_Thm | C20 | D |
| read_row_correct | Row_Thm | C20 | D F |
| row_bounds_correct | Row_Thm | C20 | D |
| element_blocks_disjoint | Storage_Thm | C21 | none |
| residual_cache_room | Storage_Thm | C21 | none |
| vertex_values_separate | Storage_Thm | C21 | none |
| pde_offsets_agree | Storage_Thm | C21 | none |
| connection_blocks_disjoint | Storage_Thm | C21 | none |
| face_pointer_agrees | Storage_Thm | C21 | none |
| coarse_storage_fits | Storage_Thm | C21 | none |
| history_bounds | History_Thm | C22 | D N C F |
| history_factor | History_Thm | C22 | D N C F |
| simplex_nearest | Simplex_Thm | C23 | D N F |
| simplex_nearest_any_tree | Simplex_Thm | C23 | D N F |
| simplex_intersections_partial | Simplex_Thm | C24 | D F |
| simplex_intersections_refuted | Simplex_Thm | C24 | D F |
| simplex_sort_refuted | Simplex_Thm | C24 | D F |
| pde_flux | Pde_Thm | C25 | D F |
| pde_characteristics | Pde_Thm | C25 | D N C F |
| bc_nonpenetration | Bc_Thm | C26 | D F |
| bc_no_slip | Bc_Thm | C26 | D N F |
| bc_thermal | Bc_Thm | C26 | D F |
| bc_freestream_outflow | Bc_Thm | C26 | D F |
| bc_pressure_outflow | Bc_Thm | C26 | D N F |
| spatial_convection | Spatial_Thm | C27 | D N C F |
| spatial_residual | Spatial_Thm | C27 | D N C F |
| spatial_diffusion | Spatial_Thm | C27 | D N C F |
| basis_interpolate | Basis_Thm | C28 | D F |
| basis_diff_mat | Basis_Thm | C28 | D F |
| basis_equidistant | Basis_Thm | C28 | D F |
| physical_basis_indices | Pbasis_Thm | C29 | none |
| physical_basis_coords | Pbasis_Thm | C29 | D F |
| pow_nonneg | Math_Thm | C30 | none |
| pow_neg | Math_Thm | C30 | none |
| pow_double | Math_Thm | C30 | D F |
| log_least | Math_Thm | C30 | none |
| log_invalid | Math_Thm | C30 | none |
| bisection_correct | Math_Thm | C31 | D N F |
| bisection_step | Math_Thm | C31 | D F |
| bisection_in_bracket | Math_Thm | C31 | D F |
| bicgstab_residual | Iter_Thm | C32 | D F |
| stopwatch_history | Stopwatch_Thm | C33 | none |
| stopwatch_rejects | Stopwatch_Thm | C33 | none |
| stopwatch_add | Stopwatch_Thm | C33 | none |
| layer_fills_unit_partial | Layer_Thm | C34 | D N C F |
| layer_fills_unit_refuted | Layer_Thm | C34 | D N C F |
| mesh_valid | Mesh_Thm | C35 | none |
| mesh_connect_rest | Mesh_Thm | C35 | none |
| mesh_file_partial | Mesh_Thm | C36 | none |
| mesh_file | Mesh_Thm | C36 | none |
| mesh_file_refuted | Mesh_Thm | C36 | none |
| fix_admissible_refuted | March_Thm | C37 | D |
| fix_admissible_partial | March_Thm | C37 | none |
| flow_time_refuted | March_Thm | C38 | D N F |
| flow_time_partial | March_Thm | C38 | D N F |
| update_balanced | Update_Thm | C39 | none |
| smoothing_ends | Update_Thm | C39 | none |
| update_start | Update_Thm | C39 | none |
| update_again | Update_Thm | C39 | none |
| surface_then_update | Update_Thm | C39 | none |
| vertex_sharing | Vertex_Thm | C40 | D F |
| csv_table | Csv_Thm | C41 | none |
| hypercube_matvec_kronecker | Tensor_Thm | C42 | D F |
| dimension_matvec_single | Tensor_Thm | C42 | D |
| pow_outer_power | Tensor_Thm | C42 | D F |
| interp_multilinear | Tensor_Thm | C42 | D F |
| interp_at_vertices | Tensor_Thm | C42 | D F |
| proj_to_segment_nearest | GeomPred_Thm | C43 | D F |
| bounding_ball_bounds | GeomPred_Thm | C43 | D F |
| intersects_exact | GeomPred_Thm | C43 | D F |
| tree_flood_fill_nonleaf_partial | Tree_Thm | C44 | none |
| tree_flood_fill_nonleaf_refuted | Tree_Thm | C44 | none |
| stretched_ind_correct | Math_Thm | C45 | none |
| direction_normal | Math_Thm | C45 | none |
| kernel_factory_exact | Factory_Thm | C46 | none |
| refined_connection_conforms | Connection_Thm | C47 | none |
| refined_connection_wrong_number | Connection_Thm | C47 | none |
| hanging_vertices_interpolated | Connection_Thm | C48 | D F |
| layer_spacing | Layer_Thm | C49 | D N C F |
| layer_spacing_positive | Layer_Thm | C49 | D N C F |
| layer_n_grow | Layer_Thm | C49 | D N C F |
| layer_total_height | Layer_Thm | C49 | D N C F |
| hil_sequence | Hil_Thm | C50 | none |
| hil_end_of_text | Hil_Thm | C51 | none |
| vertex_weak | Vertex_Thm | C52 | D F |
| vertex_votes | Vertex_Thm | C53 | D F |
| simplex_crossings | Simplex_Thm | C54 | D F |
| pde_speed | Pde_Thm | C55 | D N F |
| bc_characteristic | Bc_Thm | C56 | D N C F |
| bc_characteristic_flux_partial | Bc_Thm | C57 | D N C F |
| bc_characteristic_flux_refuted | Bc_Thm | C57 | D N C F |
| csv_safe_partial | Csv_Thm | C58 | none |
| csv_endless_refuted | Csv_Thm | C58 | none |
| csv_bounds_refuted | Csv_Thm | C58 | none |
| gmres_optimal | Iter_Thm | C59 | D N F |
| gmres_monotone | Iter_Thm | C59 | D N F |
| gmres_exact | Iter_Thm | C59 | D N F |
| gmres_storage_refuted | Iter_Thm | C60 | D N F |
| gmres_storage_partial | Iter_Thm | C60 | D N F |
| solved_stays_refuted | Iter_Thm | C61 | D N F |
| solved_stays_partial | Iter_Thm | C61 | D N F |
| equation_interface | Iter_Thm | C62 | D F |
| bicgstab_storage | Iter_Thm | C63 | D F |
| fix_terminates | March_Thm | C64 | none |
| update_counters | March_Thm | C65 | D N F |
| max_time_step_refuted | March_Thm | C66 | D N F |
| max_time_step_partial | March_Thm | C66 | D N C F |
| chebyshev_steps | March_Thm | C67 | D N C F |
| quad_derivative | Quad_Thm | C68 | D N C F |
| quad_by_parts | Quad_Thm | C68 | D N C F |
| quad_prolong_restrict | Quad_Thm | C69 | D F |
| quad_projection | Quad_Thm | C69 | D N C F |
| quad_filter | Quad_Thm | C70 | D N C F |
| quad_tables | Quad_Thm | C71 | D N F |
| mesh_pointers_partial | Mesh_Thm | C72 | none |
| mesh_pointers_refuted | Mesh_Thm | C72 | none |
| mesh_cleanup | Mesh_Thm | C73 | none |
| mesh_cleanup_refuted | Mesh_Thm | C73 | none |
| update_lock_refuted | Update_Thm | C74 | none |
| update_lock_partial | Update_Thm | C74 | none |
| update_orphans_refuted | Update_Thm | C75 | none |
| update_orphans_partial | Update_Thm | C75 | none |
| refine_unrefine_no_orphans | Update_Thm | C75 | none |
| update_order_refuted | Update_Thm | C76 | none |
| update_order_partial | Update_Thm | C76 | none |
| update_requests | Update_Thm | C77 | none |
| update_requests_again | Update_Thm | C77 | none |
| update_idle | Update_Thm | C77 | none |
| trim_extrudable | Trim_Thm | C78 | none |
| trim_filled | Trim_Thm | C78 | none |
| trim_repeatable_refuted | Trim_Thm | C79 | none |
| trim_repeatable_partial | Trim_Thm | C79 | none |
| deform_exact | Trim_Thm | C80 | none |
| deform_uniform | Trim_Thm | C80 | none |
| surface_ready | Trim_Thm | C80 | none |
| update_ready | Trim_Thm | C80 | none |
| layer_made | Trim_Thm | C80 | none |
| plain_connected | Join_Thm | C81 | none |
| surface_connected | Join_Thm | C82 | none |
| surface_finishes | Join_Thm | C82 | none |
| update_connected_partial | Join_Thm | C83 | none |
| update_connected_refuted | Join_Thm | C83 | none |
| layers_complete | Extr_Thm | C84 | none |
| layers_point_refuted | Extr_Thm | C85 | none |
| layers_point_partial | Extr_Thm | C85 | none |
| free_kernels | Free_Thm | C86 | D N F |
| free_uniform_flow | Free_Thm | C86 | D N F |
| free_cartesian | Free_Thm | C86 | D N C F |
| jac_shared | Jac_Thm | C87 | D F |
| jac_mean | Jac_Thm | C87 | D N F |
| jac_refined | Jac_Thm | C87 | D N C F |
| jac_plane | Jac_Thm | C88 | D F |
| jac_solid | Jac_Thm | C88 | D N C F |
| jac_uniform_flow | Jac_Thm | C89 | D N C F |
| jac_agreeing | Jac_Thm | C89 | D N C F |
| jac_snapped_partial | Jac_Thm | C90 | D N C F |
| jac_snapped_refuted | Jac_Thm | C90 | D N C F |
| visc_kernels | Visc_Thm | C91 | D N C F |
| visc_uniform_flow | Visc_Thm | C91 | D N C F |
| visc_deformed | Visc_Thm | C91 | D N C F |
| stress_flux | Stress_Thm | C92 | D N F |
| stress_dissipates | Stress_Thm | C92 | D N F |
| stress_transport | Stress_Thm | C92 | D N C F |
| snap_position | Snap_Thm | C93 | D F |
| snap_face_position | Snap_Thm | C93 | D N F |
| snap_surface | Snap_Thm | C94 | D N F |
| snap_problem | Snap_Thm | C94 | D N F |
| snap_elsewhere | Snap_Thm | C94 | D F |
| snap_two_refuted | Snap_Thm | C94 | D N F |
| sweep_keeps | Sweep_Thm | C95 | D N F |
| sweep_plane | Sweep_Thm | C95 | D N F |
| sweep_plane_stays | Sweep_Thm | C95 | D N F |
| sweep_stays_partial | Sweep_Thm | C96 | D N F |
| sweep_corner_refuted | Sweep_Thm | C96 | D N F |
| sweep_hanging_refuted | Sweep_Thm | C96 | D N C F |
| vis_polynomial | Vis_Thm | C97 | D F |
| vis_fetch | Vis_Thm | C97 | D |
| vis_interior | Vis_Thm | C97 | D F |
| vis_face | Vis_Thm | C97 | D F |
| vis_edges | Vis_Thm | C97 | D F |
| vis_sample | Vis_Thm | C97 | D F |
| vis_one_dim | Vis_Thm | C97 | D F |
| bounds_field_extremes | Vis_Thm | C98 | D F |
| atmosphere_domain | Atmos_Thm | C99 | D N C F |
| atmosphere_profile | Atmos_Thm | C99 | D N C F |
| atmosphere_gas | Atmos_Thm | C99 | D N C F |
| atmosphere_sea_level | Atmos_Thm | C99 | D N C F |
| atmosphere_offset | Atmos_Thm | C99 | D N C F |
| atmosphere_hydrostatic | Atmos_Thm | C99 | D N C F |
| atmosphere_continuous | Atmos_Thm | C99 | D N C F |
| atmosphere_geometric | Atmos_Thm | C99 | D N C F |
| atmosphere_geometric_hydrostatic | Atmos_Thm | C99 | D N C F |
<!-- end assumptions -->

### 3.5 Mutation tests

`seeded/LOG.jsonl` has one line per wrong program. Each is a one-place change of a definition in a `*_Model.v` file
in a scratch copy. The copy is rebuilt; a lemma whose proof no longer goes through is replaced by its bare statement so that the
build reaches the theorems. `theorems_failed` lists the theorems which depend on such a lemma and whose statement the change makes false. A theorem
whose proof merely uses a broken lemma, but which still holds of the changed program, is left out. If no
theorem failed the line says so and names the theorem that was added or tightened, if any.

## 4. Findings

Each of the following was found while modelling. "Proved" names the theorem that derives it from the model. The others were found by
reading and are not backed by a theorem.

### 4.1 Proved

| where | finding | theorem |
|---|---|---|
| src/Tree.cpp, `flood_fill` | called on a non-leaf it also floods from the non-leaf itself, so that neighbours outside of the called-on subtree are labelled | tree_flood_fill_nonleaf_refuted |
| include/math.hpp, `log` | overflows `int` for bases and arguments whose next power does not fit | log_least, log_invalid |
| include/connection.hpp, `Refined_connection` | the storage of the coarse side has room only if row_size <= 2*n_dim + 6 | coarse_storage_fits |
| src/Layer_sequence.cpp | the layer heights do not add up to 1 (wall spacing 1/4, one wall layer: 7/8) | layer_fills_unit_refuted |
| include/Namespace.hpp, `exists_recursive` | requires the name in all direct supers and does not search their supers, so that names which can be looked up are reported not to exist; and a name in a chain of four namespaces is not found at all | namespace_lookup_refuted |
| src/Interpreter.cpp, `exit` | empties the text including its final NUL; the evaluator then reads the front of an empty list | hil_exit_refuted, hil_end_of_text |
| src/Interpreter.cpp, `_eval` | the newline or `;` after a statement is consumed, then binary operators are looked for: `{a};#{b}` is one expression | hil_sequence_refuted |
| src/Interpreter.cpp, `_substitute` | blanks after the operand of `$` are dropped: `${print 1} 2` runs `print 12` | hil_macro_blanks_refuted |
| include/Vertex.hpp, `Non_transferable_ptr` | assigning a reference to itself resets it | vertex_weak_example |
| include/Simplex_geom.hpp, `intersections` | compares a squared distance with a radius; crossings are missed in nodes larger than 1 | simplex_intersections_refuted |
| include/Simplex_geom.hpp, sorting | more than 100 equal points make the construction of the tree endless | simplex_sort_refuted |
| src/Boundary_condition.cpp, `Characteristic` flux | the outgoing transport flux is halved at the interface instead of vanishing | bc_characteristic_flux_refuted |
| src/read_csv.cpp | a last line without line break is read for ever; a row shorter than the first is searched beyond its end | csv_endless_refuted, csv_bounds_refuted |
| src/iterative.cpp, `gmres` | writes vector n_restart + 3 although the documentation asks for n_restart + 3 vectors | gmres_storage_refuted |
| src/iterative.cpp | neither solver stops at a zero residual; the next step divides 0 by 0 | solved_stays_refuted |
| src/Solver.cpp, `fix_admissibility` | the last smoothing is not followed by a check | fix_admissible_refuted |
| src/Solver.cpp, `update` | a step in which a fix happened does not advance the flow time | flow_time_refuted |
| src/Solver.cpp, `update` | the largest time step is enforced before multiplication by the Chebyshev factor | max_time_step_refuted |
| src/Accessible_mesh.cpp, reading | the fine elements of refined connections are permuted by the constructor, written in permuted order and permuted again on reading, so that they change places for 36 of the combinations of directions and stretching | mesh_file_refuted |
| src/Accessible_mesh.cpp, `write` | leaves the position of every element in its `record`; a following `cleanup` of a mesh with a tree deletes all elements but the first | mesh_cleanup_refuted |
| include/connection.hpp, destructors | the destructor of a connection clears the face pointers of its elements even if another connection uses them: `valid()` may report no problem while face data is null | mesh_pointers_refuted |
| src/Accessible_mesh.cpp:1172-1204 | `unrefinement_locked` is checked only for the element visited; an unlocked sibling that requests coarsening coarsens a locked one | update_lock_refuted |
| src/Accessible_mesh.cpp:1228-1243 | the flood fill unrefines a node if none of its children has an element, without looking at what is below the children: their elements lose their nodes but stay in the mesh, and a coarse element is added on top of them | update_orphans_refuted, wall_loses |
| src/Accessible_mesh.cpp:1153-1160 | a request of 0 of an extruded element does not stop a later -1: the result of the parallel loop depends on the order of its iterations | update_order_refuted |
| src/Accessible_mesh.cpp:894-955 | `delete_bad_extrusions` is meant to be repeatable, but which elements are deleted depends on the order in which the parallel loop visits them: an element marked by one pair no longer counts for the next | trim_repeatable_refuted, cells_order |
| src/Accessible_mesh.cpp:1228-1316 | the elements that lose their nodes keep their connections, and the coarse element added on top of them is connected as well: two elements at the same place | update_connected_refuted, wall_wrong |
| src/Accessible_mesh.cpp:792-801 | in one dimension the neighbour is always taken for the coarse element of a refined connection, also if it is the finer one (harmless for one-point faces) | line_swapped |
| src/Accessible_mesh.cpp:1106, include/Mesh_by_type.hpp:194 | `purge` erases the pointers in `extrude_cons` to connections of elements with record 2, but connections of all elements with record != 0 are destroyed. With several layers a refinement request of an outer element is passed on by only one layer, an extruded element keeps the record 1, and the next update uses a pointer to a destroyed connection | layers_point_refuted, split_dangles |
| src/Deformed_element.cpp:61-117 | the metric terms of a three-dimensional element with snapped faces do not close for row sizes above 3 (cofactors are taken of the interpolated positions instead of in a curl form), so that a uniform flow does not stay uniform near curved walls | jac_snapped_refuted |
| src/Solver_snap_faces.cpp:74 | the sweeps average with the kernel of Cartesian connections, which does not transpose: at corners between the directions 0 and 2 the averaged points are not the same | sweep_corner_refuted |
| src/Solver_snap_faces.cpp:70 | the second sweep means to clear the fine side of hanging connections but clears its LDG data, which the kernel overwrites: a wall displaced by v everywhere is displaced by 3/2 v where it hangs | sweep_hanging_refuted |
| script/auto_generate.py | generated `orthogonal(degree)` reads outside of its table for degree >= row_size | quad_tables |
| src/standard_atmosphere.cpp:31 | the loop enters a layer already 1e-10 m below its base and there multiplies in a factor larger than 1: the pressure jumps up by about 1e-14 of its value, the temperature follows the gradient of the wrong layer | atmosphere_jump, atmosphere_decreasing_refuted |
| src/Struct_expr.cpp:17-18 | an assignment with an empty (or blank) side, e.g. `"x = "`, erases the blanks and then takes `front()` of the empty string: undefined behaviour instead of an exception | expr_malformed_refuted |
| src/Linearized.cpp:78 | `matvec` subtracts stage 1 from the updated state as if it were a reference state, but stage 1 is the residual cache: A 0 is the state divided by eps where the residual is zero | linearized_operator_refuted |
| src/Linearized.cpp:23,79 | the constructor evaluates `matvec` into vector 1, which subtracts vector 1 from itself: the right hand side is always zero | linearized_rhs_refuted, linearized_rhs_partial |
| src/Linearized.cpp:12 | the loop over the momentum looks up the density (`n_dim` for `i_dim`) | linearized_reference_refuted |
| src/Spacetime_func.cpp:76 | with axial velocity, the axial momentum of the freestream is copied while the density changes, so that the axial velocity varies (and the pressure of the freestream is computed without the axial kinetic energy) | doublet_axial_refuted |
| src/Solver.cpp:1029,1041-1046,1080-1086 | `fix_admissibility` writes its coefficients over the Laplacian artificial viscosity before it exchanges the two, so that only the bulk viscosity is restored. The flow solver then uses the coefficients (0 to 1) as a Laplacian viscosity (include/pde.hpp:152); with constant or smoothness-based viscosity, which set only the bulk coefficient, nothing ever resets them | admis_viscosity_refuted, admis_laplacian_lost |
| src/Boundary_func.cpp:54-56 | `Heat_flux` lacks the minus sign of `Viscous_stress` and of hil_properties.cpp:69: it returns the heat flux out of the surface, not into it as documented | gas_heat_flux_refuted, gas_heat_flux_partial |

### 4.2 By reading

* `hypercube_matvec` does not support 0 dimensions; `Hanging_vertex_matcher` does not support 1D; `Refined_connection` with
  an empty list of fine elements is undefined behaviour.
* With several extruded layers the parallel loops of `update` over `extrude_cons` (lines 1152-1160 and 1302-1312) read records that other
  iterations write: how far requests and deletions are passed on depends on the schedule.
* `deform` exchanges elements for new ones whose `unrefinement_locked` is false: locks are lost.
* `math::bisection` needs ordered bounds. `intersects` is false for coincident endpoints.
* `Stopwatch`: a region that straddles a reset counts time before the reset.
* The copy constructor of `Transferable_ptr` leaves `shareable_value` uninitialised.
* `Mutual_ptr<T, T>`: pairing with itself and moving to itself break the invariant.
* Mesh files: reading computes the number of fine elements from both stretch flags, although only the first n_dim - 1 matter: a 2D connection
  with flags {false, true} is written but can not be read. `connect_rest` accepts boundary conditions that do not
  exist; such a file is refused on reading. `extrude` and `add_tree` leave `record` != 0 as `write` does.
* `connect_hanging` sets the coarse face before it checks the number of fine elements; if it throws the face pointer dangles. It
  decides between Cartesian and deformed by all entries of `fine_def`, including superfluous ones. `connect_boundary` accepts
  negative boundary conditions and dimensions that do not exist.
* `Solver::calc_jacobian` would apply the permutation of a reversed refined connection to the wrong side; deformed refined connections are always
  created with `rev = false` (src/Accessible_mesh.cpp:217, 760, 1741). Snapped faces of neighbours need not coincide, their normals are averaged.
* Mesh `snap_vertices`: `min_sz = std::max(min_sz, ...)` starting from a huge number never changes `min_sz`.
* Interpreter: `abs` of a string and a refused assignment throw `std::runtime_error`, not a HIL exception; `format_double` is
  used as a printf format without check; after `except` text is skipped up to the next `;` or newline even
  inside of a string literal; `make_sub` returns an interpreter by value whose callbacks captured `this`.
* `Solver::max_dt` gives 6 of the 7 fields of `Kernel_options`, so that `use_filter` lands in `compute_residual`.
* `Linearized`: the reference momentum of every component is taken from the variable `freestream` + n_dim.
* `History_monitor`: edge cases of empty histories. `Hypersphere::intersections` divides by zero for a tangent direction of zero length.
* `math::orthonormal`: the documented nearness claim does not hold for columns of different lengths.
* `Physical_basis`: a bounding box without extent leads to a division by zero. `Equidistant` with row size 1: 0/0.
* `Freestream`, `Function_bc` and `Cache_bc` use `copy_state` for the flux.
* `ASSERT_THERM_ADMIS` checks the wrong component; it is not used.
* `chebyshev_step` with a non-integer `n_cheby_flow` truncates.
* `Spatial::Neighbor_reconcile` permutes variables beyond `n_update` that it did not initialise (harmless for the existing PDEs).
* Generated `min_eig_*` functions have no check of the row size.
* `fix_admissibility` does not check the state after its last step (C115, `admis_runs_example`), counts one step less than it makes, and gives up
  with an exception if the flow becomes admissible only after more than half of the iterations allowed (`admis_limit_example`).
* `is_admissible`: a fine face of a refined face that is not admissible sets no record, so that nothing is smeared because of it; values that are
  not finite are not reported if an earlier value of the same element (or an earlier fine face) is bad (`admis_flow_example`).
* `thermo::admissible` checks the energy, not the pressure (`admis_check_pressure`); its argument `heat_rat` is not used. The documentation of
  fix_therm_admis says that the energy need only be nonnegative and that NaN is repaired; the code demands a positive energy and throws at NaN.
* `av_unscaled_max` is called the greatest viscosity before scaling; the code limits after multiplying by `av_visc_mult`.
