# Formal model of srmainwaring/mathutils — design

Target: the header-only C++ library in `/repo/src/MathUtils`. Prover: Coq (Rocq) 8.16.1.
All Coq sources are in `rocq/theories`, logical path `Verif`. This file was written before the
proofs and is kept current; `MANIFEST.json` maps each property to its theorems.

## 1. How the code is modelled

* **Scalars.** The C++ code is templated on its scalar type. The model is too: most definitions take
  a `Num T` structure (`Num.v`) — a record of operations (`+ - * /`, `<`, `<=`, `==`, literals, pi) with
  *no laws*. It is instantiated at
  * `RNum p`: the real numbers of the Coq standard library, with `p : R` standing for the constant
    `MU_PI` (`RNum PI` for the ideal value). This is exact arithmetic: rounding is idealised away;
  * `F64Num`: IEEE-754 binary64, round to nearest even (Flocq `binary_float 53 1024`), NaN, infinities
    and signed zeros included;
  * some theorems quantify over *every* `Num` structure and hence cover both.
* **Control outcomes.** `outcome A` (`Outcome.v`) is `Ok a | Throw e | Exit code | Abort | UB`.
  C++ exceptions, `exit()`, a failing `assert` and undefined behaviour are distinct results, and
  nothing is assumed away: `operator[]` out of bounds, null dereference, missing `return`, reading
  an indeterminate value are `UB`; `.at()` out of bounds is `Throw OutOfRange`.
* **Build mode.** `build := Debug | Release`; `assert` is checked in Debug and skipped in Release
  (`NDEBUG`). Both are quantified over.
* **State.** Methods that mutate an object return the new object state together with the outcome, so
  the state left behind by an exception is visible. Objects are records of their fields.
* **Integers.** `size_t`/`unsigned`/`int` are `nat`/`Z`; wrap-around and conversions are explicit
  (`mod 2^32`) wherever the code relies on them (e.g. `unsigned int icell = -1`). Container sizes are
  assumed to fit their index type, as stated in each comment.
* **Standard library.** `std::lower_bound`/`upper_bound` are the halving loops of libstdc++ (so they have
  a result on unsorted data too); `is_sorted`, `min_element`, `max_element`, `reverse` are recursive
  functions; `std::unordered_map` is an association list whose iteration order is arbitrary (theorems
  quantify over it); `std::sort` is any sorting function meeting its contract.
* **Dependencies not in /repo** (Eigen, Boost, libm). `sin cos atan2 asin sqrt exp pow fmod` are the real
  functions in the `R` instance (`NumFun.v`); `fmod` on binary64 is the exact remainder.
  Boost's `chebyshev_t`, `chebyshev_t_prime` and `chebyshev_clenshaw_recurrence` are modelled by their
  documented recurrences. Eigen decompositions (QR, LU, SVD, Cholesky) and Bessel functions
  are universally quantified arguments constrained by their documented contract; the contract is a
  hypothesis of the theorem and an example shows it is satisfiable. Functions defined by limits or
  integrals (E1, Ei, Struve, Bessel) are specified with Coquelicot's integral.
* **Definedness.** To show that a formula over R never divides by zero or takes a logarithm or power out
  of its domain, the same model is run on partial reals (`option R`, `S_Special.v`): the result is
  `Some` of the real result.

## 2. File layout

`Outcome Num NumFun StdAlgo F64` (base), then per area `M_<area>.v` (model, each definition citing
file:lines), `S_<area>.v` (specification, independent of the model), `L_<area>.v` (lemmas),
`T_<area>.v` (only the property theorems, each closed by `exact lemma.` and followed by
`Print Assumptions`, with an `Example` instantiating it on a concrete non-trivial case).

## 3. Trusted base

* Coq 8.16.1 kernel (and `vm_compute` reduction inside it).
* Axioms: only those of the Coq standard library reached through `Reals`
  (`ClassicalDedekindReals.sig_forall_dec`, `ClassicalDedekindReals.sig_not_dec`,
  `FunctionalExtensionality.functional_extensionality_dep`, and `Classical_Prop.classic` where
  Flocq/Coquelicot/Ranalysis use it). No axiom of our own. The exact list per theorem is in section 6.
* That the model matches the C++ text: every definition cites the lines it transcribes; nothing was
  compiled or run.
* C++ floating-point evaluation order and absence of FMA contraction for binary64 theorems.

## 4. Plan per property

| id | modelled | proof |
|---|---|---|
| C01-C12 | `Interp1d.h` in full: base `Initialize`, coefficient vectors, the three `PrivEval`, vector `Eval`, factory; ordinates real or complex | `lower_bound` is the partition point on sorted data (induction on the halving loop); coefficient `k` is the chord of cell `k`; field arithmetic. C07 by induction over cells. C09, C12 hold for any `Num` |
| C13-C16 | `Interp2d.h` in full | same search lemma on both axes; coefficient vector indexed by `i*(ny-1)+j`; field arithmetic for bilinear identity |
| C17-C22 | `LookupTable1D.h` as a state machine over `SetX, AddY, Eval, move` | refinement invariant to a finite map specification, by induction on histories; corruption theorems by symbolic execution from an arbitrary consistent state |
| C23-C24 | `LookupTable2D.h` | same |
| C25-C30, C34 | `RegularGridInterpolator.h` and `thirdparty/linterp.h`, dimension `N` arbitrary, row-major flat data | induction on `N` over the unit-cube recursion; object protocol as a state machine with dangling-pointer state |
| C31-C33 | `RegularGridNearest.h` | search lemma; midpoint rule minimises distance |
| C35-C37 | `Angles.h` over R and over binary64 | R: truncation quotient; binary64: Flocq rounding lemmas (exactness of the subtraction by ulp counting) |
| C38-C39 | `Unit.h` | field, case analysis on units |
| C40-C43 | `VectorGeneration.h`, `StdVector.h` | list induction |
| C44-C50 | `Functions.h`, `Check.h`, `Maths.h` | case analysis, `lra`, trigonometric lemmas; binary64 for C50 |
| C51-C58 | `Polynomial.h`, `PowerSeries{1,2,3}d.h` | induction; derivatives via Coquelicot `is_derive` |
| C59-C63 | `ChebyshevSeries{1,2,3}d.h` | Clenshaw by induction; discrete cosine orthogonality by telescoping; coefficients of T_n by induction with factorials |
| C64-C66 | `Integration1d.h` | sums; state machine |
| C67-C68 | `Integration2dTriangle.h`, `QuadratureTables.h` | rational computation of moments for each table lifted to all polynomials; affine map |
| C69-C70 | `Convolution.h`, `FFT.h::GetFrequencyVector` | sums |
| C71-C77 | `Geometry.h`, `Vector2d.h`, `Complex.h` | trigonometric identities, `nsatz`/`ring`, `atan2` characterisation |
| C78-C81 | decision logic and post-processing in `Matrix.h`, `VectorN.h` | matrices over R (or any real field) with Eigen factorisations as contracts |
| C82-C83 | derivative wrappers and E1/Ei in `BoostFunctions.h` | contracts; positivity of denominators |
| C84-C90 | further properties of the areas above (re-initialisation, shapes, memory safety, binary64 `linspace`, units, factory, point counts) | as above |
| C91-C96 | `Geometry.h`, `Vector2d.h`, `Vector3d.h`, `Matrix.h` | as C71-C81 |
| C97-C101 | accuracy of the E1, Ei and Struve approximations | the error times the denominators is bounded by polynomials whose sign is decided by certified integer arithmetic (`L_Poly.v`, `L_PolyWin.v`), against Taylor or Laguerre-type enclosures of the exact function |
| C102 | `FFT.h`: `fft` (both overloads), `ifft`, the four flag methods; the vector level of Eigen::FFT is transcribed, its engine is a contract (bins of the DFT, unscaled inverse of a Hermitian spectrum) | finite sums of cosines; flag history by induction; inversion by orthogonality of the roots of unity |
| C103-C104 | `Functions.h::Dirac` with both overloads of `abs`; `Spline.h` with Eigen's fitting as a contract | case analysis over the sampled grid; scaling is invariant under increasing affine maps |
| C105 | `Matrix.h`: Cholesky update (both), inverse; LLT and rankUpdate as contracts | uniqueness of the Cholesky factor; matrix algebra over any real field |
| C106-C108 | `Polynomial.h`, `Interp1d.h`, `Unit.h` at the `F64Num` instance | standard model of rounding derived from Flocq (`L_F64Err.v`), induction on the loop; products and quotients by counting rounding factors |
| C109 | `IsEqual`, `IsIdentity` of the vector and matrix classes, with Eigen's `isApprox`/`isIdentity` transcribed | norms as square roots of finite sums; sign and overflow cases of Flocq's operations |
| C110 | the definitions of `M_Basics.v` (`IsClose`, `Saturate`, `sgn`, `Heaviside`, `Ramp`) at binary64 | case analysis on Flocq's floats; rounding error bounds |
| C111 | the definitions of `M_Grid.v` at binary64 | same cells as over the reals; error recursion over the axes |
| C112 | the definitions of `M_Interp2d.v` at binary64 | error calculus of `L_Apx.v` along the four coefficients |
| C113 | `arange` and `linspace` of `M_Basics.v` at binary64 (floor is Flocq's `Bnearbyint mode_DN`) | count via the rounding of the quotient, values via C87 |
| C114 | `trapz_uniform`, `trapz_xy`, `naive_convolution` of `M_Integ.v` at binary64 | running error of a left-to-right sum (`L_Sum64.v`); exact dyadics for integers |
| C115 | `frequency_vector`, `sample`, `compute_trapz`, `integ1_get` of `M_Integ.v` at binary64; the user's function is any function on doubles | drift of repeated addition (`L_Sum64.v`) |
| C116 | `v3_norm`, `v3_cross` of `M_Triangle.v`, `Normalize`, `IsUnit`, `inner`, `infNorm`, `Amplitude` of `M_Vec.v`, `SgnSqrt` of `M_Basics.v` at binary64 | over/underflow of the squares described exactly; square root assumed correctly rounded |
| C117 | `eulerAnglesZYXToRotationMatrix`, `eulerAnglesZYXToQuaternion`, `quaternionToRotationMatrix`, `quaternionToEulerAnglesZYX` (pitch) of `M_Geometry.v`, the projections of `M_Vec.v` at binary64 | sine and cosine through an error bound |
| C118 | `rgn_nearest`, `rgn_around` of `M_Grid.v` at binary64 | none |
| C119 | `ps1_evaluate`, `ps2_evaluate`, `ps3_evaluate`, `cs1_evaluate`, `cs2_evaluate`, `cs3_evaluate` at binary64 | none |
| C120 | `init1d`, `init_base`, `coef_loop`, `eval1d`, `get_xmin`, `get_xmax`, `init2d`, `init_base2`, `coef2_loop`, `cell_index`, `eval2d`, `get_limits2` | none |
| C121 | `rgi_coord_min`, `rgi_coord_max`, `rgi_coord`, `rgi_is_valid`, `rgn_coord_min`, `rgn_coord_max`, `rgi_new`, `rgn_new` | none |
| C122 | `lut2_nb_sample` | none |
| C123 | `pow2` | none |
| C124 | `E1_approximation`, `inv_frac`, `horner`, `rejected` at double | accuracy of exp and log of the library |
| C125 | `Ei_approximation`, `cf`, `cheb_frac`, `expEi` at double | accuracy of exp and log of the library |
| C126 | `ps3_make`, `ps3_evaluate`, derivatives, `ps3_compute_cij`, `mrow`, `mcoef` | none beyond the model |
| C127 | `ps1_derivative_x`, `ps2_derivative_x/y`, `ps3_derivative_x/y/z`, `ps3_f_dfdx_dfdy`, `horner_derivative`, `coef_deriv` | binary64, round to nearest even |
| C128 | `tri_new`, `tri_compute`, `v3_norm`, `v3_cross`, the triangle tables | binary64, round to nearest even |
| C129 | `cs1_derivative_x`, `cs2_derivative_x/y`, `cs3_derivative_x/y/z`, `chebyshev_t`, `chebyshev_t_prime`, `coef_deriv` | binary64, round to nearest even |
| C130 | `interp_simplex`, `simplex_walk`, `cell_frac`, `find_cell`, `get_f_val` | binary64, round to nearest even |
| C131 | `logspace`, `Sinc`, `Sinc_range`, `TransportAtPoint`, `TransportAtPoint_out`, `TransportAtPoint_fun` | binary64, round to nearest even; sine and pow of the mathematical library are inputs |
| C132 | `cs1_compute_ai`, `cs2_compute_aij`, `cs3_compute_aijk` and evaluation of the result | binary64, round to nearest even; the cosine of the mathematical library is an input |
| C133 | `transformation_coefficient`, `cs1_compute_bi`, `cs2_compute_bij`, `cs3_compute_bijk` and evaluation of the converted series | binary64, round to nearest even; pow of the mathematical library is an input |
| C134 | `ps3_compute_cij`, `ps3_compute_cij_zinf`, the `_z_predefined` calls and the `_zinf` calls | binary64, round to nearest even |
| C135 | `GetNEDVelocityVector`, `GetProjectedAngleAroundX/Y/Z`, `bessel_derivative`, `bessel_i_derivative`, `bessel_k_derivative`, `Dirac` | binary64, round to nearest even; sin, cos, atan2 and the Bessel functions are inputs |
| C136 | (C136) `Interp1d`, `Interp2d`, `RegularGridInterpolator`, `RegularGridNearest` on sampled functions | real arithmetic; Interp1d also in binary64 |
| C137 | (C137) `ChebyshevSeries1d/2d/3d` built from smooth functions | real arithmetic and binary64 |
| C138 | (C138) `Trapz`, `Integrate1d`, `NaiveConvolution` of sampled functions | real arithmetic (convolution) and binary64 |
| C139 | (C139) `Interp1d`, `Interp2d`, N-d grids, `Trapz`, `Integrate1d`, `NaiveConvolution`, Chebyshev series under refinement | real arithmetic |
| C140 | (C140) `Integration2dTriangle` for continuous integrands, meshes | real arithmetic and binary64 |
| C141 | (C141) `InterpSimplex::interp_vec` on sampled functions | real arithmetic; the sort is any function that sorts |
| C142 | (C142) `RegularGridInterpolator::Interp`, `InterpSimplex::interp_vec` | real arithmetic; the sort is any function that sorts |
| C143 | (C143) `RegularGridInterpolator::Interp`, `InterpSimplex::interp_vec` | IEEE double from the table to the value returned |
| C144 | (C144) `LookupTable1D::Eval`, `LookupTable2d::Eval`, `Interp2dLinear::Eval` on sampled functions | real arithmetic and IEEE double |
| C145 | (C145) `Integration2dTriangle::Compute` over the parts and refinements of a triangle | real arithmetic |
| C146 | (C146) `RegularGridNearest::Nearest`, `LookupTable1D::Eval`, `LookupTable2d::Eval` on sampled functions | real arithmetic and IEEE double |
| C147 | (C147) `FFT::fft`, `FFT::ifft` on combined, delayed and convolved signals; `NaiveConvolution` through spectra | real arithmetic |
| C148 | (C148) `MatrixMN::GetPseudoInverse` applied to right-hand sides | any ordered field |
| C149 | (C149) `MatrixMN::GetLUDecomposition`, `GetQRDecomposition`, `GetCholeskyDecomposition`, `IsPositiveSemiDefinite`: consequences for the matrix | any ordered field |
| C150 | (C150) `ChebyshevSeries1d/2d/3d`: linearity, dependence on node values, products, reflection, energy, uniqueness of coefficients | exact reals |
| C151 | (C151) `Interp1dLinear*`, `Interp2dLinear`, `RegularGridInterpolator::Interp`: dependence on the samples | exact reals, inside the range |
| C152 | (C152) `Trapz` and `Interp1dLinear*`: the rule is the integral of the interpolant | exact reals |
| C153 | (C153) `RegularGridInterpolator::Interp`: slabs, reduction of the dimension | exact reals, inside the grid |

## 5. Not modelled

* `Transform3d.h` (declarations only), `MathUtils*.h`, `version.h` (includes), stream output (`<<`, `print`),
  `Randomize`.
* Ill-formed or never instantiable code, which has no behaviour: `rad2deg(const std::vector&)`,
  `FFT::ConvolveNaive`, `LookupTable2d::Eval(name, vector)`, `MatrixMN::IsOrthogonal`, and in
  `Matrix33.h`/`Matrix66.h` `GetSVDDecomposition`, `GetPseudoInverse`, `Eigenvalues` (a vector is assigned
  to a fixed-size square matrix).
* Forwarding wrappers around one Boost function (Legendre, Gamma, factorials, exact E1/Ei).
* Eigen's, Boost's and libm's own algorithms; rounding, except in the theorems that mention binary64.

## 5a. Reading the seeded-fault log

`seeded/LOG.jsonl` has one line per wrong program tried in a scratch copy. The usual procedure edits one
definition and rebuilds. Each proof that no longer compiles is then cut out in the scratch copy
(`lemmas_failed`). `theorems_failed` lists the property theorems whose proof uses one of those lemmas.

* A theorem listed there no longer has its proof. That does not show that its statement became false: a
  proof script can break on a change that keeps the statement true. The log is evidence of sensitivity,
  not a refutation of each listed theorem.
* Most runs rebuild only the theorem files aimed at by the fault, so the list is not exhaustive.
* Faults that left the scratch copy ill-typed are not logged: they test nothing.

## 6. Assumptions of each theorem

Output of `Print Assumptions`, which stands beneath every theorem in the `T_*.v` files (all names are
from the Coq standard library: `ClassicalDedekindReals`, `FunctionalExtensionality`, `Classical_Prop`).
No theorem depends on any other axiom.

* **none (closed under the global context)**: `C08_interp1d_vector_eval`, `C09_interp1d_complex`, `C12_interp1d_no_ub`, `C14_vector_eval`, `C14_vector_eval_short_point`, `C14_vector_eval_stops`, `C16_interp2d_no_ub`, `C17_lut1_is_a_map`, `C18_lut1_add`, `C19_lut1_set_x`, `C20_lut1_failed_add`, `C20_lut1_failed_add_eval_all`, `C20_lut1_failed_add_refuted`, `C21_lut1_move_assign`, `C21_lut1_move_ctor`, `C21_lut1_move_refuted`, `C22_lut1_eval_all`, `C23_lut2_is_a_map`, `C24_lut2_failed_add`, `C24_lut2_failed_add_refuted`, `C24_lut2_other_method_throws`, `C48_parity`, `C78_IsSymmetric_refuted`, `C78_cholesky_guard_refuted`, `C78_cholesky_ignores_the_upper_triangle`, `C78_cholesky_rejects_non_square`, `C79_invertible_refuted`, `C79_moore_penrose_unique`, `C79_pseudo_inverse`, `C79_pseudo_inverse_of_truncated`, `C80_constrained_least_squares`, `C80_contracts_satisfiable`, `C80_debug_abort`, `C80_feasible`, `C80_minimiser_unique`, `C80_rank_deficient_refuted`, `C81_make_symmetric`, `C81_make_symmetric_keeps_symmetric`, `C81_reverse`, `C81_sort`, `C81_sort_determined`, `C81_square_and_diagonal`, `C86_grid_interp_total`, `C88_string2angle`, `C89_interp1d_factory`, `C92_same_unit`, `C95_full_qr`, `C95_lu`, `C95_thin_qr`, `C95_wide_matrix`, `C96_nonsymmetric_refuted`, `C96_not_square`, `C96_positive_semi_definite`, `C102_flags`, `C105_failure_reported_refuted`, `C105_in_place_twice`, `C105_in_place_twice_refuted`, `C105_inverse`, `C105_update`, `C121_nearest_calls`, `C123_pow2`, `C126_cij_smaller`, `C126_hollow_matrix`, `C126_no_matrix`, `C126_predefined_short`, `C126_short_matrix`, `C127_combined_call`, `C127_combined_call_fixed_z`, `C148_any_decomposition`, `C148_bounded`, `C148_consistent`, `C148_inverse`, `C148_involution`, `C148_least_squares`, `C148_left_inverse`, `C148_residual`, `C148_right_inverse`, `C148_solves`, `C149_cholesky`, `C149_cholesky_positive`, `C149_cholesky_unique`, `C149_lu_determinant`, `C149_qr_determinant`, `C149_qr_signs`.
* **sig_forall_dec, functional_extensionality_dep**: `C35_normalize_0_2pi`, `C35_normalize_0_360`, `C35_normalize_180`, `C35_normalize_fixpoints`, `C35_normalize_pi`, `C35_normalize_same`, `C38_velocity_compose`, `C38_velocity_helpers`, `C38_velocity_meaning`, `C39_angle_vectors`, `C39_frequency_compose`, `C39_frequency_meaning`, `C39_period_rads`, `C40_linspace`, `C40_linspace_precondition`, `C42_arange`, `C42_arange_abort`, `C43_binary`, `C44_door`, `C44_heaviside`, `C45_ramp`, `C45_ramp_precondition`, `C47_assert_is_close`, `C47_assert_is_close_vector`, `C47_isclose`, `C47_isclose_meaning`, `C47_isclose_vector`, `C47_isclose_vector_release`, `C49_saturate`, `C49_sgn`, `C53_halfline_coordinate`, `C53_segment_coordinate`, `C76_inf_norm_unique`, `C133_integers`.
* **sig_not_dec, sig_forall_dec, functional_extensionality_dep**: `C01_interp1d_reproduces_samples`, `C02_interp1d_chord`, `C03_interp1d_linear_guard`, `C04_interp1d_saturate`, `C05_interp1d_extrapolate_below`, `C06_extrapolation_above_refuted`, `C06_interp1d_extrapolate_above_throws`, `C07_interp1d_lipschitz`, `C07_interp1d_monotone`, `C10_interp1d_reinitialize_stale`, `C10_last_initialize_wins_refuted`, `C11_interp1d_debug_guard`, `C11_interp1d_empty_throws`, `C11_interp1d_release_guard`, `C11_interp1d_single_sample_unusable`, `C13_interp2d_reproduces_samples`, `C14_interp2d_bilinear`, `C15_interp2d_debug_guard`, `C15_interp2d_release_below`, `C15_interp2d_release_refuted`, `C15_interp2d_release_x_above`, `C15_interp2d_release_y_above`, `C16_interp2d_data_size`, `C16_interp2d_debug_sorted`, `C16_interp2d_empty_axis`, `C16_interp2d_other_methods`, `C25_grid_reproduces_nodes`, `C26_grid_1d_chord`, `C26_grid_2d_is_interp2d`, `C26_grid_exact_on_multi_affine`, `C26_grid_multilinear_blend`, `C27_grid_clamps`, `C28_grid_bound_check`, `C29_grid_history`, `C29_grid_next_call`, `C29_is_valid_means_usable_refuted`, `C30_grid_copy`, `C30_grid_copy_incomplete`, `C30_grid_copy_no_data`, `C31_nearest`, `C32_surrounding_nodes_inside`, `C33_below_saturates_refuted`, `C33_surrounding_nodes_outside`, `C34_simplex_1d`, `C34_simplex_affine`, `C34_simplex_nodes`, `C34_simplex_range`, `C42_arange_step_refuted`, `C47_isclose_symmetric_refuted`, `C51_horner`, `C52_horner_derivative`, `C56_fixed_z`, `C56_fixed_z_infinite`, `C57_dy_fixed_z_closed`, `C57_dy_fixed_z_opened`, `C57_dy_fixed_z_refuted`, `C58_zinf_is_limit`, `C59_chebyshev_polynomials`, `C59_evaluate_1d`, `C59_evaluate_2d`, `C59_evaluate_3d`, `C59_specification_polynomials`, `C60_nodes_exist`, `C64_trapz`, `C64_trapz_additive`, `C64_trapz_agree`, `C64_trapz_debug_guard`, `C64_trapz_linear`, `C64_trapz_monotone`, `C64_trapz_release_short`, `C64_trapz_uniform`, `C64_trapz_uniform_linear`, `C64_trapz_uniform_short`, `C65_integrate1d_function_history`, `C65_integrate1d_vector_history`, `C66_get_follows_method_refuted`, `C66_method_change_ignored`, `C69_convolution_commutes`, `C69_convolution_degenerate`, `C69_convolution_linear_kernel`, `C69_convolution_linear_signal`, `C69_convolution_reverse`, `C69_convolution_short`, `C69_convolution_value`, `C70_frequency_vector`, `C72_quaternion_action`, `C72_quaternion_only_opposite`, `C72_quaternion_opposite`, `C72_quaternion_product`, `C72_quaternion_rotation`, `C75_transport`, `C75_transport_aliased`, `C75_transport_any_point_refuted`, `C75_transport_compose`, `C75_transport_function`, `C75_transport_out`, `C75_transport_out_aliased`, `C76_inf_norm_iff`, `C76_inf_norm_negative`, `C76_inf_norm_others`, `C76_inf_norm_refuted`, `C76_inf_norm_value`, `C76_inf_norm_vec3`, `C82_bessel_derivative`, `C82_bessel_i_derivative`, `C82_bessel_k_derivative`, `C82_hankel_derivative`, `C82_integer_arguments`, `C82_integer_order_zero`, `C82_integer_zero`, `C84_interp2d_reinitialize_refuted`, `C84_interp2d_reinitialize_stale`, `C85_grid_shape_not_checked`, `C85_interp_agrees_with_eval_at_indice_refuted`, `C90_no_points`, `C90_size_checked_refuted`, `C90_vector_size_mismatch`, `C94_outer_inner`, `C102_empty`, `C102_fft_values`, `C102_parseval`, `C102_round_trip`, `C102_round_trip_odd`, `C102_round_trip_refuted`, `C102_tone`, `C103_decreasing`, `C103_impulse`, `C103_integer_abs`, `C103_integer_abs_overflow`, `C103_integer_abs_wide`, `C103_irregular_refuted`, `C103_midway`, `C103_short`, `C103_values`, `C104_affine`, `C104_empty`, `C104_nodes`, `C104_single`, `C109_identity_square_refuted`, `C109_is_equal`, `C109_is_equal_absolute_refuted`, `C109_is_equal_invariance`, `C109_is_equal_sizes`, `C109_is_equal_transitive_refuted`, `C109_is_equal_zero`, `C109_is_identity`, `C109_matrix_is_equal`, `C120_empty_table`, `C120_empty_x_2d`, `C120_empty_y_2d`, `C120_retry`, `C120_short_table`, `C120_short_table_2d`, `C120_strong_guarantee_refuted`, `C121_before_data`, `C121_beyond_dimension`, `C121_interpolator_limits`, `C121_nearest_before_data`, `C121_nearest_limits`, `C122_table_size`, `C126_agreement_refuted`, `C126_ragged_value`, `C136_grid_error_lipschitz`, `C136_interp1d_error_lipschitz`, `C136_interp2d_error_lipschitz`, `C136_nearest_error`, `C139_integrate_modulus`, `C139_interp1d_modulus`, `C141_simplex_any_sort`, `C141_simplex_error`, `C141_simplex_error_lipschitz`, `C142_grid_lipschitz`, `C142_grid_slopes`, `C142_simplex_lipschitz`, `C142_simplex_slopes`, `C144_interp2d_slopes_x`, `C144_interp2d_slopes_y`, `C144_table1d_error_lipschitz`, `C144_table2d_error_lipschitz`, `C147_cyclic`, `C147_delay`, `C147_determines`, `C147_fast_convolution`, `C147_mean`, `C147_mirror`, `C147_naive_convolution`, `C147_superposition`, `C151_grid_combination`, `C151_grid_difference`, `C151_interp1d_combination`, `C151_interp1d_insertion`, `C151_interp1d_order`, `C151_interp1d_perturbation`, `C151_interp1d_rescaling`, `C151_interp2d_combination`, `C151_interp2d_difference`, `C151_interp2d_transposition`, `C152_sample_on_chord`, `C153_axis_by_axis`, `C153_constant_axis`, `C153_on_a_slab`.
* **sig_not_dec, sig_forall_dec, functional_extensionality_dep, classic**: `C36_half_open_range_refuted`, `C36_normalize_0_2pi_double`, `C36_normalize_0_360_double`, `C37_normalize_180_double`, `C37_normalize_pi_double`, `C41_logspace`, `C43_unary`, `C46_sinc`, `C46_sinc_range`, `C49_sgnsqrt`, `C50_saturate_exact`, `C50_saturate_identity_refuted`, `C50_saturate_int64`, `C53_powerseries1d_closed`, `C53_powerseries1d_opened`, `C54_powerseries2d_closed`, `C54_powerseries2d_mixed`, `C54_powerseries2d_opened`, `C55_powerseries3d_closed`, `C55_powerseries3d_yz_opened`, `C55_powerseries3d_z_opened`, `C60_exact_1d`, `C60_exact_2d`, `C60_exact_3d`, `C60_nodes_1d`, `C60_nodes_2d`, `C60_nodes_3d`, `C60_nodes_classes_2d`, `C60_nodes_classes_3d`, `C60_nodes_closed_1d`, `C60_nodes_opened_1d`, `C61_derivative_1d`, `C61_derivative_2d`, `C61_derivative_3d`, `C62_conversion_1d`, `C62_conversion_2d`, `C62_conversion_3d`, `C62_transformation_coefficients`, `C63_recompute_refuted`, `C63_repeated_1d`, `C63_repeated_2d`, `C63_repeated_3d`, `C63_second_call_1d`, `C63_second_call_2d`, `C63_second_call_3d`, `C64_trapz_affine`, `C64_trapz_error`, `C65_integrate1d_error`, `C67_specification_area`, `C67_triangle_degree`, `C67_triangle_degree_sharp`, `C68_triangle_bound`, `C68_triangle_componentwise`, `C68_triangle_linear`, `C68_triangle_local`, `C68_triangle_order3_positive_refuted`, `C68_triangle_order_range`, `C68_triangle_orientation`, `C68_triangle_positive`, `C71_euler_product`, `C71_euler_rotation`, `C72_euler_agree`, `C72_euler_unit`, `C73_angles_matrix`, `C73_every_matrix_refuted`, `C73_gimbal_lock_matrix`, `C73_gimbal_lock_quaternion`, `C73_matrix_angles`, `C73_quaternion_angles`, `C74_components`, `C74_compose_local`, `C74_compose_ned`, `C74_inverse`, `C74_isometry`, `C74_local_on_ned`, `C74_output_reference`, `C74_units`, `C77_amplitude_phase`, `C77_lengths`, `C82_integer_arguments_refuted`, `C82_relations_I`, `C82_relations_J`, `C82_relations_K`, `C83_E1_defined`, `C83_E1_outcome`, `C83_Ei_defined_except_once`, `C83_Ei_defined_refuted`, `C83_Ei_outcome`, `C83_expEi_defined`, `C83_expEi_scaled`, `C87_linspace_double`, `C87_linspace_subnormal_refuted`, `C88_get_trigo`, `C91_matrix_to_quaternion`, `C91_quaternion_round_trip`, `C92_ned_velocity`, `C92_set_ned`, `C93_projected_angles`, `C94_is_unit`, `C94_normalize`, `C94_normalize_zero`, `C97_E1_accuracy_1_to_4`, `C97_E1_accuracy_above_4`, `C97_E1_accuracy_below_1`, `C97_specification_E1`, `C98_E1_accuracy_refuted`, `C98_E1_at_4_refuted`, `C98_changed_1_to_4`, `C98_changed_above_4`, `C99_Ei_accuracy_6_to_12`, `C99_Ei_accuracy_above_12`, `C99_Ei_accuracy_below_6`, `C99_expEi_accuracy`, `C99_specification_Ei`, `C99_specification_derivative`, `C100_Ei_accuracy_refuted`, `C100_changed_6_to_12`, `C101_all_arguments_refuted`, `C101_defined`, `C101_derivative`, `C101_exit`, `C101_order_0`, `C101_order_1`, `C101_parity`, `C106_horner_derivative_double`, `C106_horner_double`, `C106_horner_integers_exact`, `C107_interp1d_constant_refuted`, `C107_interp1d_double`, `C107_interp1d_integers_exact`, `C107_interp1d_nan_query`, `C107_interp1d_nan_table_refuted`, `C107_interp1d_samples_refuted`, `C107_interp1d_wide_cell_refuted`, `C108_degrees_double`, `C108_degrees_roundtrip_refuted`, `C108_frequency_double`, `C108_frequency_roundtrip`, `C108_velocity_double`, `C108_velocity_roundtrip`, `C108_velocity_same_unit_refuted`, `C109_is_equal_double`, `C109_is_equal_nonfinite`, `C109_zero_tolerance_refuted`, `C110_heaviside_double`, `C110_isclose_double`, `C110_isclose_finite_infinity`, `C110_isclose_infinity_finite`, `C110_isclose_infinity_itself`, `C110_isclose_infinity_refuted`, `C110_isclose_nan`, `C110_ramp_double`, `C110_ramp_end_refuted`, `C110_saturate_double`, `C110_sgn_double`, `C111_grid_double`, `C111_grid_double_bound_check`, `C111_grid_double_constant`, `C111_grid_double_nan`, `C111_grid_double_nodes`, `C111_nan_query_refuted`, `C111_node_overflow_refuted`, `C111_range_refuted`, `C112_interp2d_constant_refuted`, `C112_interp2d_double`, `C112_interp2d_integers_exact`, `C112_interp2d_nan_query`, `C112_interp2d_nodes_refuted`, `C113_arange_double`, `C113_arange_integers_exact`, `C113_arange_nan`, `C113_count_refuted`, `C113_decimal_count_refuted`, `C114_convolution_double`, `C114_rules_agree_refuted`, `C114_trapz_integers_exact`, `C114_trapz_nan`, `C114_trapz_uniform_double`, `C114_trapz_xy_double`, `C115_frequency_double`, `C115_frequency_increasing`, `C115_inside_interval_refuted`, `C115_integrate_function_double`, `C115_integrate_vector_double`, `C115_nyquist_refuted`, `C116_amplitude_double`, `C116_amplitude_refuted`, `C116_cross_antisymmetric`, `C116_cross_double`, `C116_infNorm_exact`, `C116_inner_double`, `C116_norm_double`, `C116_normalize_double`, `C116_normalize_nan`, `C116_normalize_overflow`, `C116_normalize_refuted`, `C116_normalize_tiny`, `C116_orthogonal_refuted`, `C116_sgnsqrt_double`, `C117_axes_double`, `C117_euler_matrix_double`, `C117_euler_orthogonal_double`, `C117_euler_quaternion_double`, `C117_pitch_refuted`, `C117_project_back_double`, `C117_project_double`, `C117_quaternion_matrix_double`, `C117_quaternion_matrix_euler_double`, `C118_nearest_at_node_refuted`, `C118_nearest_double`, `C118_nearest_excess_double`, `C118_nearest_nan_undefined`, `C118_nearest_overflow_refuted`, `C118_surrounding_inside_double`, `C118_surrounding_outside_double`, `C119_chebyshev_series_1d_double`, `C119_chebyshev_series_2d_double`, `C119_chebyshev_series_3d_double`, `C119_power_series_1d_double`, `C119_power_series_2d_double`, `C119_power_series_3d_double`, `C119_short_segment_refuted`, `C124_E1_double_1_to_4`, `C124_E1_double_above_4`, `C124_E1_double_below_1`, `C124_E1_double_exit`, `C124_E1_double_inaccurate`, `C124_any_rounding_1_to_4`, `C124_any_rounding_above_4`, `C124_any_rounding_below_1`, `C125_Ei_double_12_to_24`, `C125_Ei_double_6_to_12`, `C125_Ei_double_above_24`, `C125_Ei_double_below_6`, `C125_Ei_double_exit`, `C125_any_rounding_12_to_24`, `C125_any_rounding_6_to_12`, `C125_any_rounding_above_24`, `C125_expEi_double`, `C127_derivative_1d_double`, `C127_derivative_x_2d_double`, `C127_derivative_y_2d_double`, `C127_derivatives_3d_double`, `C127_far_halfline_refuted`, `C128_sliver_refuted`, `C128_triangle_double`, `C128_triangle_polynomial_double`, `C129_chebyshev_derivative_1d_double`, `C129_chebyshev_derivatives_2d_double`, `C129_chebyshev_derivatives_3d_double`, `C130_simplex_double_affine`, `C130_simplex_double_constant`, `C130_simplex_double_exact_nodes_refuted`, `C130_simplex_double_nodes`, `C130_simplex_double_range`, `C131_logspace_double`, `C131_sinc_double`, `C131_sinc_range_double`, `C131_transport_double`, `C131_transport_function_double`, `C131_transport_out_double`, `C132_chebyshev_interpolation_1d_double`, `C132_chebyshev_interpolation_2d_double`, `C132_chebyshev_interpolation_3d_double`, `C133_coefficients_exact`, `C133_conversion_1d_double`, `C133_conversion_2d_double`, `C133_conversion_3d_double`, `C134_calls_fixed_z`, `C134_calls_infinite_z`, `C134_coefficients_fixed_z`, `C134_coefficients_infinite_z`, `C134_direct_infinite_z`, `C135_bessel_derivative_double`, `C135_dirac_double`, `C135_dirac_linspace_double`, `C135_hankel_derivative_double`, `C135_ned_velocity_double`, `C135_projected_angles_double`, `C136_grid_error`, `C136_interp1d_double_error`, `C136_interp1d_error`, `C136_interp2d_error`, `C137_double_1d`, `C137_double_2d`, `C137_double_3d`, `C137_error_1d`, `C137_error_2d`, `C137_error_3d`, `C137_error_segment`, `C137_sensitivity`, `C138_convolution_double`, `C138_convolution_integral`, `C138_integrate_double`, `C138_trapz_uniform_double`, `C138_trapz_xy_double`, `C139_chebyshev_converges_1d`, `C139_chebyshev_converges_2d`, `C139_chebyshev_converges_3d`, `C139_chebyshev_rate_1d`, `C139_chebyshev_rate_2d`, `C139_chebyshev_rate_3d`, `C139_convolution_converges`, `C139_grid_converges`, `C139_integrate_converges`, `C139_interp1d_converges`, `C139_interp2d_converges`, `C139_nearest_converges`, `C139_trapz_converges`, `C140_mesh_converges`, `C140_triangle_best`, `C140_triangle_best_double`, `C140_triangle_oscillation`, `C141_same_as_multilinear_refuted`, `C141_simplex_converges`, `C141_smooth_functions`, `C143_grid_double_error`, `C143_grid_double_error_lipschitz`, `C143_simplex_double_any_sort`, `C143_simplex_double_error`, `C143_simplex_double_error_lipschitz`, `C143_simplex_double_exact`, `C144_interp2d_double_error`, `C144_interp2d_double_error_lipschitz`, `C144_table1d_double_error`, `C144_table1d_error`, `C144_table2d_double_error`, `C144_table2d_error`, `C145_integral_cut`, `C145_integral_symmetric`, `C145_quadrature_cut`, `C145_quadrature_cut_polynomial`, `C145_refine_converges`, `C145_refine_rate`, `C146_nearest_double_error`, `C146_table1d_converges`, `C146_table2d_converges`, `C146_table2d_double_error_lipschitz`, `C150_coefficients_unique`, `C150_energy`, `C150_linear_1d`, `C150_linear_2d`, `C150_linear_3d`, `C150_local_1d`, `C150_local_2d`, `C150_local_3d`, `C150_product_2d`, `C150_product_3d`, `C150_recover`, `C150_recover_2d`, `C150_recover_3d`, `C150_reflection`, `C152_integral_between_samples`, `C152_integral_of_interpolant`.
