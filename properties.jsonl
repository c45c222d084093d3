{"id": "C01", "title": "1D interpolation reproduces its samples", "statement": "After a successful Initialize on strictly increasing abscissae with at least two samples, Eval at the i-th abscissa returns exactly the i-th ordinate, for LINEAR, LINEAR_EXTRAPOLATE and LINEAR_SATURATE.", "quantifier": "every table of n>=2 samples with strictly increasing x, every index i, every one of the three linear methods", "why_tests_cant": "The quantifier ranges over infinitely many real inputs and tables of any size; a test fixes one table and a few points.", "anchors": ["src/MathUtils/Interp1d.h: Interp1dLinearBase::Initialize, PrivEval", "src/MathUtils/Interp1d.h: Interp1dLinear/Extrapolate/Saturate::PrivEval"]}
{"id": "C02", "title": "1D interpolation between samples is the chord", "statement": "For x_i <= x <= x_{i+1}, Eval(x) is the ordinate at x of the straight line through (x_i,y_i) and (x_{i+1},y_{i+1}); in particular it lies between min and max of the two ordinates.", "quantifier": "every table, every cell i, every real x in the cell, each of the three methods", "why_tests_cant": "The quantifier ranges over infinitely many real inputs and tables of any size; a test fixes one table and a few points.", "anchors": ["src/MathUtils/Interp1d.h: Interp1dLinearBase::PrivEval"]}
{"id": "C03", "title": "LINEAR never answers outside its range and always inside", "statement": "With method LINEAR, Eval(x) terminates the process with status 1 exactly when x<xmin or x>xmax; for every other x it returns a value: no exception, no undefined behaviour.", "quantifier": "every table with n>=2 strictly increasing abscissae, every real x", "why_tests_cant": "The quantifier ranges over infinitely many real inputs and tables of any size; a test fixes one table and a few points.", "anchors": ["src/MathUtils/Interp1d.h: Interp1dLinear::PrivEval"]}
{"id": "C04", "title": "LINEAR_SATURATE is total and clamps", "statement": "With method LINEAR_SATURATE, Eval(x) returns a value for every x, equal to the value at x clamped to [xmin,xmax]: y_first below the range, y_last above; it therefore never leaves the range of the ordinates.", "quantifier": "every table with n>=2 strictly increasing abscissae, every real x", "why_tests_cant": "The quantifier ranges over infinitely many real inputs and tables of any size; a test fixes one table and a few points.", "anchors": ["src/MathUtils/Interp1d.h: Interp1dLinearSaturate::PrivEval"]}
{"id": "C05", "title": "LINEAR_EXTRAPOLATE below the range continues the first chord", "statement": "With method LINEAR_EXTRAPOLATE and x<xmin, Eval(x) is the ordinate at x of the line through the first two samples.", "quantifier": "every table with n>=2 strictly increasing abscissae, every real x below the range", "why_tests_cant": "The quantifier ranges over infinitely many real inputs and tables of any size; a test fixes one table and a few points.", "anchors": ["src/MathUtils/Interp1d.h: Interp1dLinearExtrapolate::PrivEval"]}
{"id": "C06", "title": "LINEAR_EXTRAPOLATE above the range (defect)", "statement": "With method LINEAR_EXTRAPOLATE, Eval(x) for x>xmax never extrapolates: it throws std::out_of_range, for every table and every such x. The claim 'extrapolation continues the last chord' is false.", "quantifier": "every table with n>=2 strictly increasing abscissae, every real x above the range", "why_tests_cant": "The existing unit test only exercises the side below the range; the claim is that every x above every range fails.", "anchors": ["src/MathUtils/Interp1d.h: Interp1dLinearBase::PrivEval (lower_bound==end)"]}
{"id": "C07", "title": "1D interpolant preserves monotonicity and Lipschitz bounds", "statement": "If the ordinates are nondecreasing then Eval with LINEAR_SATURATE is nondecreasing on all reals; if every chord slope is bounded by K in absolute value then |Eval(x)-Eval(x')| <= K|x-x'| (hence Eval is continuous).", "quantifier": "every table, every pair of reals x<=x', every bound K", "why_tests_cant": "The claim compares the values at every pair of points, across any number of cells.", "anchors": ["src/MathUtils/Interp1d.h: Interp1dLinearSaturate::PrivEval"]}
{"id": "C08", "title": "Vector evaluation is pointwise", "statement": "Eval on a vector returns the vector of the pointwise values, in order and of the same length; if some point fails the outcome is that of the first failing point.", "quantifier": "every table, every vector of points of any length", "why_tests_cant": "The quantifier ranges over infinitely many real inputs and tables of any size; a test fixes one table and a few points.", "anchors": ["src/MathUtils/Interp1d.h: Interp1d::Eval(std::vector)"]}
{"id": "C09", "title": "Complex ordinates are interpolated component by component", "statement": "For complex ordinates, the real and imaginary parts of Eval(x) are the values of the same interpolation applied to the real and imaginary parts of the samples, with the same failure outcome.", "quantifier": "every table of complex samples (even unsorted), every x, every method, every scalar type for the components", "why_tests_cant": "The quantifier ranges over infinitely many real inputs and tables of any size; a test fixes one table and a few points.", "anchors": ["src/MathUtils/Interp1d.h: Interp1dLinearBase<XReal,YScalar>"]}
{"id": "C10", "title": "Re-initialising a 1D interpolator (defect)", "statement": "Calling Initialize a second time on the same object does not replace the data: the coefficients of the first call stay in front, so evaluation answers from the first data set whenever the selected cell index existed there. The claim 'the last Initialize wins' is false.", "quantifier": "every pair of tables, every x", "why_tests_cant": "The claim is about every sequence of calls, of any length; a test runs one sequence.", "anchors": ["src/MathUtils/Interp1d.h: Interp1dLinearBase::Initialize (a,b never cleared)"]}
{"id": "C11", "title": "1D Initialize guards", "statement": "Debug build: Initialize aborts exactly when sizes differ or x is not sorted. Empty abscissae throw out_of_range. Release build: ordinates shorter than abscissae throw out_of_range, longer are accepted. A one-sample table initialises but every in-range Eval throws.", "quantifier": "every pair of vectors of any lengths, both build modes", "why_tests_cant": "The quantifier ranges over infinitely many real inputs and tables of any size; a test fixes one table and a few points.", "anchors": ["src/MathUtils/Interp1d.h: Interp1d::Initialize, Interp1dLinearBase::Initialize"]}
{"id": "C12", "title": "1D evaluation never has undefined behaviour", "statement": "For every scalar type (no algebraic law or order assumed, so IEEE doubles with NaN and infinities included), every pair of vectors for which Initialize returned, and every x, Eval either returns a value, throws out_of_range or exits with status 1; it never reads out of bounds.", "quantifier": "every scalar type and comparison, every table (sorted or not), every x", "why_tests_cant": "The quantifier ranges over infinitely many real inputs and tables of any size; a test fixes one table and a few points.", "anchors": ["src/MathUtils/Interp1d.h: Interp1dLinearBase::PrivEval"]}
{"id": "C13", "title": "2D interpolation reproduces its samples (row-major layout)", "statement": "After a successful Initialize on strictly increasing x (nx>=2) and y (ny>=2) and nx*ny data, Eval(x_i,y_j) returns exactly data[ny*i+j].", "quantifier": "every grid size, every data vector, every node (i,j)", "why_tests_cant": "The quantifier ranges over infinitely many real inputs and tables of any size; a test fixes one table and a few points.", "anchors": ["src/MathUtils/Interp2d.h: Interp2dLinear::Initialize, Eval"]}
{"id": "C14", "title": "2D interpolation is the bilinear blend of the cell corners", "statement": "For (x,y) in cell (i,j), Eval(x,y) is the bilinear blend of the four corner data; it lies between the min and max of the corners, so is continuous across shared edges.", "quantifier": "every grid, every cell, every point of the cell", "why_tests_cant": "The quantifier ranges over infinitely many real inputs and tables of any size; a test fixes one table and a few points.", "anchors": ["src/MathUtils/Interp2d.h: Interp2dLinear::Initialize, Eval"]}
{"id": "C15", "title": "2D evaluation outside the grid", "statement": "Debug build: Eval outside [xmin,xmax]x[ymin,ymax] aborts and inside never does. Release build (defect): for x in range and y>ymax, Eval silently answers with the bilinear coefficients of the first y-cell of the next x-row instead of failing, unless x is in the last x-row (then it throws).", "quantifier": "every grid, every point outside, both build modes", "why_tests_cant": "The quantifier ranges over infinitely many real inputs and tables of any size; a test fixes one table and a few points.", "anchors": ["src/MathUtils/Interp2d.h: Interp2dLinear::Eval"]}
{"id": "C16", "title": "2D Initialize guards", "statement": "Debug build aborts iff x or y is not sorted; data shorter than needed throws out_of_range; empty axes throw; non-LINEAR methods make MakeInterp2d throw.", "quantifier": "every triple of vectors, both build modes, every method", "why_tests_cant": "The quantifier ranges over infinitely many real inputs and tables of any size; a test fixes one table and a few points.", "anchors": ["src/MathUtils/Interp2d.h: Interp2d::Initialize, Interp2dLinear::Initialize, MakeInterp2d"]}
{"id": "C17", "title": "LookupTable1D behaves as a map from names to interpolated series", "statement": "After any sequence of SetX/AddY/Eval calls in which no AddY failed, Eval(name,x) equals the 1D interpolation of the ordinates registered under that name with the abscissae in force when it was added; GetNbSeries is the number of distinct names; Eval/GetXmin/GetXmax on an unregistered name throws out_of_range.", "quantifier": "every call history of any length, every name and x", "why_tests_cant": "The claim is about every sequence of calls, of any length; a test runs one sequence.", "anchors": ["src/MathUtils/LookupTable1D.h: AddY, SetX, Eval, GetNbSeries, GetIndex"]}
{"id": "C18", "title": "LookupTable1D rejects duplicates without side effects", "statement": "AddY with a name already registered returns false and leaves the table unchanged; with a fresh name and valid data it returns true and leaves every other name's answers unchanged.", "quantifier": "every reachable table, every name, every data vector, every x", "why_tests_cant": "The claim is about every sequence of calls, of any length; a test runs one sequence.", "anchors": ["src/MathUtils/LookupTable1D.h: AddY"]}
{"id": "C19", "title": "SetX does not alter series already registered", "statement": "After SetX, Eval(name,x) for every name registered before is unchanged.", "quantifier": "every reachable table, every new abscissae vector, every name and x", "why_tests_cant": "The claim is about every sequence of calls, of any length; a test runs one sequence.", "anchors": ["src/MathUtils/LookupTable1D.h: SetX"]}
{"id": "C20", "title": "A failed AddY corrupts a LookupTable1D (defect)", "statement": "If an AddY throws (for example ordinates too short in a release build) and the caller goes on, the name is nevertheless registered, the next successful AddY's data is returned for the failed name, and the new name itself cannot be evaluated. The claim 'AddY has the strong exception guarantee' is false.", "quantifier": "every reachable consistent table, every failing data vector, every following successful add", "why_tests_cant": "The claim is about every sequence of calls, of any length; a test runs one sequence.", "anchors": ["src/MathUtils/LookupTable1D.h: AddY"]}
{"id": "C21", "title": "Moving a LookupTable1D does not move the interpolation method (defect)", "statement": "After move-assignment the destination answers like the source for existing series, but series added afterwards use the destination's old method, not the source's; after move-construction the method is indeterminate, so any later AddY of a fresh name is undefined behaviour.", "quantifier": "every pair of tables, every method", "why_tests_cant": "The claim is about every sequence of calls, of any length; a test runs one sequence.", "anchors": ["src/MathUtils/LookupTable1D.h: operator=(&&), LookupTable1D(&&)"]}
{"id": "C22", "title": "LookupTable1D evaluates all series at once consistently", "statement": "Eval(x) (all series) returns exactly one entry per registered name, each equal to Eval(name,x), whenever all of those return.", "quantifier": "every reachable table, every x, every iteration order of the hash map", "why_tests_cant": "The claim is about every sequence of calls, of any length; a test runs one sequence.", "anchors": ["src/MathUtils/LookupTable1D.h: Eval<Tx,Ty>"]}
{"id": "C23", "title": "LookupTable2d behaves as a map from names to interpolated grids", "statement": "After any sequence of SetX/SetY/SetInterpolationMethod/AddData calls in which no AddData failed, Eval(name,x,y) equals the 2D interpolation of the registered data on the axes in force when it was added; HasSerie is exact; duplicates return false without side effect; unknown names throw.", "quantifier": "every call history of any length", "why_tests_cant": "The claim is about every sequence of calls, of any length; a test runs one sequence.", "anchors": ["src/MathUtils/LookupTable2D.h: AddData, SetX, SetY, Eval, HasSerie"]}
{"id": "C24", "title": "A failed AddData corrupts a LookupTable2d (defect)", "statement": "AddData under a method other than LINEAR throws after having registered the name: HasSerie then answers true, Eval(name) is either an exception or, after the next successful AddData, the other series' value.", "quantifier": "every reachable consistent table, every name/data", "why_tests_cant": "The claim is about every sequence of calls, of any length; a test runs one sequence.", "anchors": ["src/MathUtils/LookupTable2D.h: AddData; src/MathUtils/Interp2d.h: MakeInterp2d"]}
{"id": "C25", "title": "N-dimensional grid interpolation reproduces node data", "statement": "After AddCoord xN and AddVar with matching shape, Interp at a grid node returns exactly the array entry at the node's indices, for every dimension N.", "quantifier": "every dimension N>=1, every strictly increasing axes, every data array, every node", "why_tests_cant": "The quantifier ranges over infinitely many real inputs and tables of any size; a test fixes one table and a few points.", "anchors": ["src/MathUtils/RegularGridInterpolator.h: Interp", "src/MathUtils/thirdparty/linterp.h: InterpMultilinear::interp_vec, linterp_nd_unitcube, find_cell"]}
{"id": "C26", "title": "N-dimensional grid interpolation is the tensor-product multilinear blend", "statement": "Inside a cell Interp(p) equals the sum over the 2^N corners of the product of per-axis weights times corner data; hence it is exact for every multi-affine function and in 1-D/2-D coincides with chord/bilinear interpolation.", "quantifier": "every N, every grid, every cell, every point, every multi-affine function", "why_tests_cant": "The quantifier ranges over infinitely many real inputs and tables of any size; a test fixes one table and a few points.", "anchors": ["src/MathUtils/thirdparty/linterp.h: InterpMultilinear::interp_vec, linterp_nd_unitcube"]}
{"id": "C27", "title": "N-dimensional interpolation clamps outside the grid and never overshoots", "statement": "For every point, Interp(p)=Interp(p clamped per axis to the grid box), and the value lies between the minimum and maximum of the data array.", "quantifier": "every N, every grid, every real point", "why_tests_cant": "The quantifier ranges over infinitely many real inputs and tables of any size; a test fixes one table and a few points.", "anchors": ["src/MathUtils/thirdparty/linterp.h: find_cell, get_f_val, interp_vec"]}
{"id": "C28", "title": "Bound checking in RegularGridInterpolator::Interp", "statement": "With bound_check=true, Interp throws runtime_error iff some coordinate is outside its axis; otherwise it returns the same value as with bound_check=false.", "quantifier": "every valid interpolator of any dimension, every point", "why_tests_cant": "The quantifier ranges over infinitely many real inputs and tables of any size; a test fixes one table and a few points.", "anchors": ["src/MathUtils/RegularGridInterpolator.h: Interp"]}
{"id": "C29", "title": "RegularGridInterpolator construction protocol", "statement": "Over every call history: AddCoord accepts exactly strictly increasing vectors while fewer than N axes are present (exit(1) when full, runtime_error otherwise, leaving the object unchanged); AddVar exits(1) unless N axes are present; IsValid is true only after a successful AddVar/copy; size mismatch throws invalid_argument.", "quantifier": "every sequence of AddCoord/AddVar calls", "why_tests_cant": "The claim is about every sequence of calls, of any length; a test runs one sequence.", "anchors": ["src/MathUtils/RegularGridInterpolator.h: AddCoord, AddVar, IsValid, _BuildInterpolator", "src/MathUtils/thirdparty/linterp.h: set_f_array"]}
{"id": "C30", "title": "Copying a RegularGridInterpolator", "statement": "A copy of a valid interpolator answers every Interp query identically; copying one that has no AddVar yet with missing axes is undefined behaviour (defect).", "quantifier": "every valid object, every point", "why_tests_cant": "The claim is about every sequence of calls, of any length; a test runs one sequence.", "anchors": ["src/MathUtils/RegularGridInterpolator.h: operator="]}
{"id": "C31", "title": "RegularGridNearest::Nearest returns a nearest node", "statement": "On strictly increasing axes, the returned node minimises the distance to the query point along every axis (hence the Euclidean distance) over all nodes; ties go to the larger coordinate; value and coords are those of the returned indices; it is total, below and above the grid included.", "quantifier": "every dimension, every grid, every query point", "why_tests_cant": "The quantifier ranges over infinitely many real inputs and tables of any size; a test fixes one table and a few points.", "anchors": ["src/MathUtils/RegularGridNearest.h: Nearest"]}
{"id": "C32", "title": "GetSurroundingGridNodes inside the grid", "statement": "For a point with every coordinate in [first,last) of a strictly increasing axis, the 2^N returned nodes are exactly the corners of the unique cell whose per-axis interval [c_i,c_{i+1}) contains the point, in binary order with the first axis most significant.", "quantifier": "every dimension, every grid, every inside point", "why_tests_cant": "The quantifier ranges over infinitely many real inputs and tables of any size; a test fixes one table and a few points.", "anchors": ["src/MathUtils/RegularGridNearest.h: GetSurroundingGridNodes, GetNode"]}
{"id": "C33", "title": "GetSurroundingGridNodes below the grid (defect)", "statement": "For a coordinate strictly below the first grid value, every returned node carries the LAST index of that axis (the farthest one), not the first. The claim 'out-of-range points saturate to the nearest boundary node' is false below (it is true above).", "quantifier": "every grid with at least two values per axis (and fewer than 2^32), every point below", "why_tests_cant": "The quantifier ranges over infinitely many real inputs and tables of any size; a test fixes one table and a few points.", "anchors": ["src/MathUtils/RegularGridNearest.h: GetSurroundingGridNodes (unsigned int icell = -1), GetNode"]}
{"id": "C34", "title": "Simplex interpolation of the bundled linterp", "statement": "InterpSimplex reproduces node data, is exact on affine functions within a cell and never leaves the range of the data; in 1-D it equals the multilinear interpolation.", "quantifier": "every dimension, grid and point", "why_tests_cant": "The quantifier ranges over infinitely many real inputs and tables of any size; a test fixes one table and a few points.", "anchors": ["src/MathUtils/thirdparty/linterp.h: InterpSimplex::interp_vec"]}
{"id": "C35", "title": "Angle normalisation ranges and congruence (exact arithmetic)", "statement": "Normalize_0_360/Normalize_0_2PI return the unique representative of the angle modulo a full turn in [0,turn); Normalize__180_180/Normalize__PI_PI the unique one in (-half,half]. Hence they are idempotent, periodic and equal on two angles iff these are congruent.", "quantifier": "every real angle and every positive value used for pi", "why_tests_cant": "The quantifier ranges over infinitely many real inputs and tables of any size; a test fixes one table and a few points.", "anchors": ["src/MathUtils/Angles.h: Normalize_0_360, Normalize__180_180, Normalize_0_2PI, Normalize__PI_PI"]}
{"id": "C36", "title": "Normalize_0_360 in IEEE double (defect)", "statement": "In binary64 with round-to-nearest-even the result is in [0,360] for every finite input, but the half-open range fails: tiny negative angles return exactly 360.", "quantifier": "every finite binary64 input", "why_tests_cant": "2^64 inputs; the failing ones are between -2.8e-14 and 0 and never appear in a hand-written test.", "anchors": ["src/MathUtils/Angles.h: Normalize_0_360"]}
{"id": "C37", "title": "Normalize__180_180 in IEEE double", "statement": "In binary64 with round-to-nearest-even the result is finite and in (-180,180] for every finite input.", "quantifier": "every finite binary64 input", "why_tests_cant": "2^64 inputs, with rounding at three operations.", "anchors": ["src/MathUtils/Angles.h: Normalize__180_180"]}
{"id": "C38", "title": "Velocity unit conversions are consistent", "statement": "convert_velocity_unit from u to v then v to w equals u to w, u to u is the identity, and the pairwise helpers are mutually inverse.", "quantifier": "every value, every triple of velocity units", "why_tests_cant": "The quantifier ranges over infinitely many real inputs and tables of any size; a test fixes one table and a few points.", "anchors": ["src/MathUtils/Unit.h: convert_velocity_unit, KNOT2MS, MS2KNOT, KMH2MS, ..."]}
{"id": "C39", "title": "Frequency unit conversions are consistent", "statement": "convert_frequency from u to v then v to w equals u to w for every value (non-zero where a period unit S is involved), same-unit conversion is the identity, and HERTZ/RADS/DEGS/DEGM/RPM/S agree with their definitions (2*pi rad, 360 deg, 60 rpm per Hz, S=1/Hz).", "quantifier": "every value, every triple of the 6 frequency units, every non-zero value of pi", "why_tests_cant": "The quantifier ranges over infinitely many real inputs and tables of any size; a test fixes one table and a few points.", "anchors": ["src/MathUtils/Unit.h: convert_frequency and helpers"]}
{"id": "C40", "title": "linspace", "statement": "For num>=2 and start<=stop, linspace returns num values, the first is start, the last is exactly stop, the k-th is start+k*(stop-start)/(num-1); the sequence is nondecreasing (strictly if start<stop). Outside the precondition a debug build aborts; a release build with num=0 writes out of bounds (undefined behaviour).", "quantifier": "every start, stop, num, both build modes", "why_tests_cant": "The quantifier ranges over infinitely many real inputs and tables of any size; a test fixes one table and a few points.", "anchors": ["src/MathUtils/VectorGeneration.h: linspace"]}
{"id": "C41", "title": "logspace", "statement": "logspace(start,stop,num,base) returns base^(linspace(start,stop,num)) point by point, for base>0 its consecutive ratios are constant and the ends are base^start and base^stop.", "quantifier": "every start<=stop, num>=2, base>0", "why_tests_cant": "The quantifier ranges over infinitely many real inputs and tables of any size; a test fixes one table and a few points.", "anchors": ["src/MathUtils/VectorGeneration.h: logspace"]}
{"id": "C42", "title": "arange (defect)", "statement": "arange(start,stop,step) returns floor((stop-start)/step) values from start to num*step, so the spacing is num*step-start over num-1, which is never the requested step (for num>=2) unless start=step. The claim 'k-th value is start+k*step' holds iff start=step.", "quantifier": "every start, stop, step with at least two points", "why_tests_cant": "The quantifier ranges over infinitely many real inputs and tables of any size; a test fixes one table and a few points.", "anchors": ["src/MathUtils/VectorGeneration.h: arange"]}
{"id": "C43", "title": "std::vector arithmetic helpers", "statement": "Add, Minus, Mult, Divide, AddScalar, Scale, Pow, Negate, Sum act elementwise (Sum is the total) and preserve length; with unequal lengths a debug build aborts and a release build with a shorter second operand is undefined behaviour.", "quantifier": "every pair of vectors of any lengths, every scalar, both build modes", "why_tests_cant": "The quantifier ranges over infinitely many real inputs and tables of any size; a test fixes one table and a few points.", "anchors": ["src/MathUtils/StdVector.h: Add, AddScalar, Sum, Minus, Mult, Divide, Scale, Pow, Negate"]}
{"id": "C44", "title": "Heaviside and Door", "statement": "Heaviside is 0 before, 1/2 at and 1 after the step; Door is height strictly inside, half height at both ends and 0 outside, for every x and x_min<x_max.", "quantifier": "every real abscissae vector and parameters", "why_tests_cant": "The quantifier ranges over infinitely many real inputs and tables of any size; a test fixes one table and a few points.", "anchors": ["src/MathUtils/Functions.h: Heaviside, Door"]}
{"id": "C45", "title": "Ramp", "statement": "Ramp is constant y_left below x_min, y_right above x_max, affine in between, continuous, and stays between y_left and y_right.", "quantifier": "every parameters with x_min<x_max, every x", "why_tests_cant": "The quantifier ranges over infinitely many real inputs and tables of any size; a test fixes one table and a few points.", "anchors": ["src/MathUtils/Functions.h: Ramp"]}
{"id": "C46", "title": "Sinc", "statement": "Sinc(0)=1, Sinc is even, |Sinc|<=1 and Sinc(x)*x=sin(x) for every x.", "quantifier": "every real x", "why_tests_cant": "The quantifier ranges over infinitely many real inputs and tables of any size; a test fixes one table and a few points.", "anchors": ["src/MathUtils/Functions.h: Sinc"]}
{"id": "C47", "title": "IsClose", "statement": "IsClose(a,a) holds; it is monotone in the tolerances; it is not symmetric (the relative tolerance only looks at the second argument) but IsClose(a,b) implies IsClose(b,a) with both tolerances divided by 1-rtol (rtol<1). The vector form is the conjunction over the elements.", "quantifier": "every pair of reals and tolerances", "why_tests_cant": "The quantifier ranges over infinitely many real inputs and tables of any size; a test fixes one table and a few points.", "anchors": ["src/MathUtils/Check.h: IsClose"]}
{"id": "C48", "title": "is_odd / is_even", "statement": "For every C++ int, negative included, is_odd and is_even decide parity and are complementary.", "quantifier": "every 32-bit int", "why_tests_cant": "2^32 inputs; and the negative remainder convention.", "anchors": ["src/MathUtils/Check.h: is_odd, is_even"]}
{"id": "C49", "title": "sgn, Saturate and SgnSqrt", "statement": "sgn is the sign; Saturate(v,lo,hi) with lo<=hi is the closest point of [lo,hi] to v; SgnSqrt(x)*|SgnSqrt(x)|=x.", "quantifier": "every real input", "why_tests_cant": "The quantifier ranges over infinitely many real inputs and tables of any size; a test fixes one table and a few points.", "anchors": ["src/MathUtils/Maths.h: sgn, Saturate, SgnSqrt"]}
{"id": "C50", "title": "Saturate on 64-bit integers (defect)", "statement": "Because the value goes through a double, Saturate<long> inside its bounds does not return its argument for some values above 2^53.", "quantifier": "every 64-bit integer (exact up to 2^53 in magnitude)", "why_tests_cant": "The quantifier ranges over infinitely many real inputs and tables of any size; a test fixes one table and a few points.", "anchors": ["src/MathUtils/Maths.h: Saturate"]}
{"id": "C51", "title": "Horner evaluates the polynomial", "statement": "Horner(c,x)=sum_i c_i x^i for every non-empty coefficient vector; empty vectors throw out_of_range.", "quantifier": "every coefficient vector of any length, every x", "why_tests_cant": "The quantifier ranges over infinitely many real inputs and tables of any size; a test fixes one table and a few points.", "anchors": ["src/MathUtils/Polynomial.h: Horner"]}
{"id": "C52", "title": "Horner_derivative is the derivative", "statement": "Horner_derivative(c,x) is the derivative at x of the function computed by Horner(c,.).", "quantifier": "every non-empty coefficient vector, every x", "why_tests_cant": "The quantifier ranges over infinitely many real inputs and tables of any size; a test fixes one table and a few points.", "anchors": ["src/MathUtils/Polynomial.h: Horner_derivative"]}
{"id": "C53", "title": "1D power series: value and derivative", "statement": "PowerSeries1d Evaluate is sum b_i u(x)^i with u the affine (closed) or hyperbolic (open) map onto [-1,1]; Evaluate_derivative_x is the derivative of Evaluate.", "quantifier": "every order, coefficients, segment, every x (x<>0 open)", "why_tests_cant": "The quantifier ranges over infinitely many real inputs and tables of any size; a test fixes one table and a few points.", "anchors": ["src/MathUtils/PowerSeries1d.h: Evaluate, Evaluate_derivative_x, PowerSeries1dClosed, PowerSeries1dOpened"]}
{"id": "C54", "title": "2D power series: value and partial derivatives", "statement": "PowerSeries2d Evaluate is sum b_ij u(x)^i v(y)^j and both derivative methods are the partial derivatives of Evaluate, for the closed, opened and mixed variants.", "quantifier": "every orders, coefficients, domain, point", "why_tests_cant": "The quantifier ranges over infinitely many real inputs and tables of any size; a test fixes one table and a few points.", "anchors": ["src/MathUtils/PowerSeries2d.h: Evaluate, Evaluate_derivative_x, Evaluate_derivative_y"]}
{"id": "C55", "title": "3D power series: value and partial derivatives", "statement": "PowerSeries3d Evaluate is sum b_ijk u^i v^j w^k and the x/y/z derivative methods are its partial derivatives, for the three variants.", "quantifier": "every orders, coefficients, domain, point", "why_tests_cant": "The quantifier ranges over infinitely many real inputs and tables of any size; a test fixes one table and a few points.", "anchors": ["src/MathUtils/PowerSeries3d.h: Evaluate, Evaluate_derivative_x/y/z"]}
{"id": "C56", "title": "3D power series with predefined z", "statement": "Precomputing the coefficients at z and evaluating (x,y) gives the same value and x-derivative as direct evaluation; Evaluate_f_dfdx_dfdy agrees with the three separate calls.", "quantifier": "every orders, coefficients, domain, point", "why_tests_cant": "The quantifier ranges over infinitely many real inputs and tables of any size; a test fixes one table and a few points.", "anchors": ["src/MathUtils/PowerSeries3d.h: Evaluate_z_predefined, Evaluate_derivative_x_z_predefined, ..."]}
{"id": "C57", "title": "3D power series y-derivative with predefined z (defect)", "statement": "Evaluate_derivative_y_z_predefined scales by the chain-rule factor taken at x instead of y: for the variant with open y it is off by the factor (y/x)^2, so it equals the y-derivative iff x^2=y^2 or the unit derivative vanishes; for closed y it is right.", "quantifier": "every orders, coefficients, domain, point", "why_tests_cant": "The quantifier ranges over infinitely many real inputs and tables of any size; a test fixes one table and a few points.", "anchors": ["src/MathUtils/PowerSeries3d.h: Evaluate_derivative_y_z_predefined"]}
{"id": "C58", "title": "3D power series at infinite z", "statement": "For the open-z variants, the value returned for z=infinity is the limit of Evaluate(x,y,z) as z grows.", "quantifier": "every orders, coefficients, domain, (x,y)", "why_tests_cant": "A limit statement.", "anchors": ["src/MathUtils/PowerSeries3d.h: Evaluate_zinf..."]}
{"id": "C59", "title": "Chebyshev series evaluation", "statement": "ChebyshevSeries1d/2d/3d Evaluate equals the sum of a_i T_i(u(x)) (tensor products in 2D/3D), with T_n(cos t)=cos(n t).", "quantifier": "every order, coefficients, domain and point", "why_tests_cant": "The quantifier ranges over infinitely many real inputs and tables of any size; a test fixes one table and a few points.", "anchors": ["src/MathUtils/ChebyshevSeries1d.h: Evaluate", "src/MathUtils/ChebyshevSeries2d.h: Evaluate", "src/MathUtils/ChebyshevSeries3d.h: Evaluate"]}
{"id": "C60", "title": "Chebyshev coefficients interpolate the function", "statement": "After one coefficient computation of order N (orders M,N,P in 2D/3D), Evaluate equals the function at all Chebyshev nodes mapped to the domain, exactly in real arithmetic; the nodes are in the domain and distinct; and on polynomials of degree <= N (in 1/x along half-lines) it equals the function everywhere.", "quantifier": "every order, every function, every segment or half-line, 1D, 2D and 3D", "why_tests_cant": "The quantifier ranges over infinitely many real inputs and tables of any size; a test fixes one table and a few points.", "anchors": ["src/MathUtils/ChebyshevSeries1d.h: Compute_ai, Evaluate", "src/MathUtils/ChebyshevSeries2d.h: Compute_aij, Evaluate", "src/MathUtils/ChebyshevSeries3d.h: Compute_aijk, Evaluate"]}
{"id": "C61", "title": "Chebyshev derivatives", "statement": "Evaluate_derivative_x (and _y, _z in 2D/3D) is the partial derivative of Evaluate.", "quantifier": "every order, coefficients, domain, point", "why_tests_cant": "The quantifier ranges over infinitely many real inputs and tables of any size; a test fixes one table and a few points.", "anchors": ["src/MathUtils/ChebyshevSeries1d.h: Evaluate_derivative_x", "src/MathUtils/ChebyshevSeries2d.h: Evaluate_derivative_x, Evaluate_derivative_y", "src/MathUtils/ChebyshevSeries3d.h: Evaluate_derivative_x, _y, _z"]}
{"id": "C62", "title": "Conversion of a Chebyshev series to a power series", "statement": "The power series obtained from a Chebyshev series of order <= 18 takes the same values at every point; above 18 the process exits. (The conversion coefficients are those of T_n for every n.)", "quantifier": "every order, coefficients, point", "why_tests_cant": "The quantifier ranges over infinitely many real inputs and tables of any size; a test fixes one table and a few points.", "anchors": ["src/MathUtils/ChebyshevSeries1d.h: Compute_bi, TransformationCoefficient", "src/MathUtils/ChebyshevSeries2d.h: Compute_bij", "src/MathUtils/ChebyshevSeries3d.h: Compute_bijk"]}
{"id": "C63", "title": "Recomputing Chebyshev coefficients (defect)", "statement": "Calling the coefficient computation a second time does not give the same coefficients: the old ones are added into the new sums.", "quantifier": "every order, function with non-zero coefficients", "why_tests_cant": "The claim is about every sequence of calls, of any length; a test runs one sequence.", "anchors": ["src/MathUtils/ChebyshevSeries1d.h: Compute_ai", "src/MathUtils/ChebyshevSeries2d.h: Compute_aij", "src/MathUtils/ChebyshevSeries3d.h: Compute_aijk"]}
{"id": "C64", "title": "Trapezoidal rule", "statement": "Both Trapz overloads return the sum of the trapezoid areas; they agree on uniform grids, are linear in y, additive over adjacent intervals, exact on affine data, and preserve inequality; error is at most M*h^2*(b-a)/12 for twice differentiable functions.", "quantifier": "every vector length and data", "why_tests_cant": "The quantifier ranges over infinitely many real inputs and tables of any size; a test fixes one table and a few points.", "anchors": ["src/MathUtils/Integration1d.h: Trapz, ComputeTrapz"]}
{"id": "C65", "title": "Integrate1d caching", "statement": "Over every sequence of setter and Get calls, Get returns the trapezoidal value for the current bounds and number of points; repeated Get returns the same value; NEWTON_COTES throws.", "quantifier": "every call history", "why_tests_cant": "The claim is about every sequence of calls, of any length; a test runs one sequence.", "anchors": ["src/MathUtils/Integration1d.h: Integrate1d::Get, SetXmin, SetXmax, SetIntegrationMethod"]}
{"id": "C66", "title": "Integrate1d ignores a late change of method (defect)", "statement": "After a successful Get, changing the integration method does not invalidate the cache: Get still returns the old value where a fresh object would throw.", "quantifier": "every object and history ending with a Get followed by SetIntegrationMethod", "why_tests_cant": "The claim is about every sequence of calls, of any length; a test runs one sequence.", "anchors": ["src/MathUtils/Integration1d.h: SetIntegrationMethod"]}
{"id": "C67", "title": "Triangle quadrature has the announced degree", "statement": "For every order d in 1..8 and every polynomial integrand of total degree <= d, the quadrature over any triangle equals the exact integral up to a relative-to-coefficients error below 1e-12 (the tables are truncated decimals).", "quantifier": "every order, triangle, polynomial of degree <= d", "why_tests_cant": "The quantifier ranges over infinitely many real inputs and tables of any size; a test fixes one table and a few points.", "anchors": ["src/MathUtils/Integration2dTriangle.h: tables, Compute, ComputeOverStandardTriangle"]}
{"id": "C68", "title": "Triangle quadrature: linearity, constants, orientation", "statement": "The rule is linear in the integrand, acts component by component on vector-valued integrands, is invariant under reversing the orientation (exchanging the last two vertices), evaluates the integrand only inside the triangle, is bounded by the area times the supremum (2.2 times for orders 3 and 7), is non-negative on non-negative integrands except for orders 3 and 7 (refuted for order 3), and orders outside 1..8 exit.", "quantifier": "every integrand, triangle, order", "why_tests_cant": "The quantifier ranges over infinitely many real inputs and tables of any size; a test fixes one table and a few points.", "anchors": ["src/MathUtils/Integration2dTriangle.h: Compute"]}
{"id": "C69", "title": "Naive convolution", "statement": "NaiveConvolution(k,s,dt,false) is the trapezoidal sum of k[i]*s[N-1-i], and with reverse=true of k[i]*s[i]; both agree after reversing the first N samples of s; it is bilinear; too short signals abort in debug and are undefined behaviour in release.", "quantifier": "every kernel and signal length", "why_tests_cant": "The quantifier ranges over infinitely many real inputs and tables of any size; a test fixes one table and a few points.", "anchors": ["src/MathUtils/Convolution.h: NaiveConvolution"]}
{"id": "C70", "title": "FFT frequency vector", "statement": "GetFrequencyVector has nfft entries (nfft/2+1 with half spectrum), the k-th being k*fs/nfft converted to the requested unit.", "quantifier": "every nfft, fs, unit, flag", "why_tests_cant": "The quantifier ranges over infinitely many real inputs and tables of any size; a test fixes one table and a few points.", "anchors": ["src/MathUtils/FFT.h: GetFrequencyVector"]}
{"id": "C71", "title": "Euler angles to rotation matrix", "statement": "eulerAnglesZYXToRotationMatrix returns a rotation (orthogonal, determinant 1) equal to Rz(yaw)Ry(pitch)Rx(roll).", "quantifier": "every triple of angles", "why_tests_cant": "The quantifier ranges over infinitely many real inputs and tables of any size; a test fixes one table and a few points.", "anchors": ["src/MathUtils/Geometry.h: eulerAnglesZYXToRotationMatrix"]}
{"id": "C72", "title": "Quaternions and rotation matrices", "statement": "eulerAnglesZYXToQuaternion returns a unit quaternion; quaternionToRotationMatrix of a unit quaternion is a rotation and v -> q v q*; q and -q give the same matrix; going through the quaternion agrees with the direct Euler conversion.", "quantifier": "every angles / unit quaternion / vector", "why_tests_cant": "The quantifier ranges over infinitely many real inputs and tables of any size; a test fixes one table and a few points.", "anchors": ["src/MathUtils/Geometry.h: quaternionToRotationMatrix, eulerAnglesZYXToQuaternion"]}
{"id": "C73", "title": "Euler angle round trips", "statement": "rotationMatrixToEulerAnglesZYX and quaternionToEulerAnglesZYX invert the corresponding constructions for roll,yaw in (-pi,pi] and pitch in (-pi/2,pi/2), and every rotation matrix with R(2,0) other than +1 and -1 is rebuilt from its angles. At a right-angle pitch (defect) both report roll = yaw = 0 whatever the rotation, so the matrix is not recovered.", "quantifier": "every angles in the domain, every rotation matrix", "why_tests_cant": "The quantifier ranges over infinitely many real inputs and tables of any size; a test fixes one table and a few points.", "anchors": ["src/MathUtils/Geometry.h: rotationMatrixToEulerAnglesZYX, quaternionToEulerAnglesZYX"]}
{"id": "C74", "title": "NED projections", "statement": "ProjectNEDOnLocal and ProjectLocalOnNED are mutually inverse isometries and the single-axis projections are their components, in both angle units.", "quantifier": "every vector, angle", "why_tests_cant": "The quantifier ranges over infinitely many real inputs and tables of any size; a test fixes one table and a few points.", "anchors": ["src/MathUtils/Vector2d.h: ProjectLocalOnNED, ProjectNEDOnLocal, ProjectOnNorthAxis, ..."]}
{"id": "C75", "title": "Velocity transport", "statement": "TransportAtPoint adds the rigid-body term w x p (in the plane); transporting to p then to q-p equals transporting to q; transporting back by -p restores the vector. The reference argument must not be the transported object itself: then (defect) the second coefficient is off by (w)^2 y.", "quantifier": "every vector, points, rate, unit, every aliasing of the references", "why_tests_cant": "The quantifier ranges over infinitely many real inputs and tables of any size; a test fixes one table and a few points.", "anchors": ["src/MathUtils/Vector2d.h: TransportAtPoint"]}
{"id": "C76", "title": "Vector2d::infNorm (defect)", "statement": "Vector2d::infNorm returns the largest coefficient, not the largest magnitude: it equals the infinity norm iff the maximum coefficient is also the maximum magnitude; it is negative for negative vectors. The infNorm of Vector3d, Vector6d and VectorN is the infinity norm.", "quantifier": "every vector", "why_tests_cant": "The quantifier ranges over infinitely many real inputs and tables of any size; a test fixes one table and a few points.", "anchors": ["src/MathUtils/Vector2d.h: infNorm"]}
{"id": "C77", "title": "Amplitude and Phase", "statement": "Amplitude*(cos Phase, sin Phase) reconstructs the complex number, Amplitude>=0, Phase in (-pi,pi] (degrees: scaled by 180/pi).", "quantifier": "every complex vector", "why_tests_cant": "The quantifier ranges over infinitely many real inputs and tables of any size; a test fixes one table and a few points.", "anchors": ["src/MathUtils/Complex.h: Amplitude, Phase"]}
{"id": "C78", "title": "IsSymmetric (defect)", "statement": "MatrixMN/Matrix33/Matrix66::IsSymmetric answers true for every matrix, so the symmetry guard of the Cholesky decomposition never fires: on a square non-symmetric matrix the decomposition reads the lower triangle only and any factor it returns does not reproduce the matrix.", "quantifier": "every matrix of every size", "why_tests_cant": "The quantifier ranges over infinitely many real inputs and tables of any size; a test fixes one table and a few points.", "anchors": ["src/MathUtils/Matrix.h: IsSymmetric, GetCholeskyDecomposition"]}
{"id": "C79", "title": "Pseudo-inverse", "statement": "Given a correct SVD, GetPseudoInverse satisfies the four Moore-Penrose conditions when every non-zero singular value exceeds the tolerance; singular values at or below it are dropped, so small invertible matrices get a wrong (zero) inverse.", "quantifier": "every matrix size and content, every tolerance", "why_tests_cant": "The quantifier ranges over infinitely many real inputs and tables of any size; a test fixes one table and a few points.", "anchors": ["src/MathUtils/Matrix.h: GetPseudoInverse"]}
{"id": "C80", "title": "Constrained least squares", "statement": "Given correct factorisations, LeastSquareSolverConstraint returns x with Cx=d minimising |Ax-b| among all such x.", "quantifier": "every sizes, A, b, C of full row rank, d", "why_tests_cant": "The quantifier ranges over infinitely many real inputs and tables of any size; a test fixes one table and a few points.", "anchors": ["src/MathUtils/Matrix.h: LeastSquareSolverConstraint"]}
{"id": "C81", "title": "Symmetrisation and reordering helpers", "statement": "MakeSymmetricFromUpper/Lower return a symmetric matrix agreeing with the kept triangle; VectorN::Sort returns a sorted permutation in the requested direction; Reverse is an involution.", "quantifier": "every matrix size, vector length", "why_tests_cant": "The quantifier ranges over infinitely many real inputs and tables of any size; a test fixes one table and a few points.", "anchors": ["src/MathUtils/Matrix.h: MakeSymmetricFromUpper", "src/MathUtils/VectorN.h: Sort, Reverse"]}
{"id": "C82", "title": "Derivatives of Bessel functions", "statement": "Given functions satisfying the standard recurrences, the derivative wrappers return the derivative for every order and argument; with integer argument type the quotient order/x is truncated (defect).", "quantifier": "every order, non-zero argument", "why_tests_cant": "The quantifier ranges over infinitely many real inputs and tables of any size; a test fixes one table and a few points.", "anchors": ["src/MathUtils/BoostFunctions.h: Cyl_Bessel_*_derivative"]}
{"id": "C83", "title": "Exponential integral approximations: outcome and definedness", "statement": "E1_approximation and Ei_approximation end the program (exit 0) for every x up to 1e-8 and return a value for every other x. E1_approximation never divides by zero nor takes the logarithm of a non-positive number; the same holds of Ei_approximation except at exactly one argument near 18.03, where a denominator of the continued fraction is zero. expEi(x) is exp(-x) times Ei: Boost's value below 24, that of Ei_approximation from 24 on.", "quantifier": "every real x", "why_tests_cant": "The quantifier ranges over infinitely many real inputs and tables of any size; a test fixes one table and a few points.", "anchors": ["src/MathUtils/BoostFunctions.h: E1_approximation, Ei_approximation, expEi"]}
{"id": "C84", "title": "Re-initialising a 2D interpolator (defect)", "statement": "Calling Initialize a second time on the same 2D interpolator does not replace the data: the coefficients of the first call stay in front and answer for every cell index that existed there. The claim 'the last Initialize wins' is false.", "quantifier": "every pair of tables with the same number of y samples, every point of a common cell", "why_tests_cant": "The quantifier ranges over infinitely many real inputs and tables of any size; a test fixes one table and a few points.", "anchors": ["src/MathUtils/Interp2d.h: Interp2dLinear::Initialize, Interp2dLinear::Eval"]}
{"id": "C85", "title": "RegularGridInterpolator does not compare shapes (defect)", "statement": "AddVar accepts every array that has as many elements as the grid has nodes, whatever its extents, and Interp re-reads it in C order with the grid's extents; EvalAtIndice uses the array's own extents, so the two disagree. The claim 'when AddVar accepted the data, Interp at a node equals EvalAtIndice' is false.", "quantifier": "every dimension, axes, array shape with the right element count, node", "why_tests_cant": "The quantifier ranges over infinitely many real inputs and tables of any size; a test fixes one table and a few points.", "anchors": ["src/MathUtils/RegularGridInterpolator.h: RegularGridInterpolator::AddVar, BuildInterpolator, Interp, EvalAtIndice", "src/MathUtils/thirdparty/linterp.h: InterpMultilinear"]}
{"id": "C86", "title": "Grid interpolation never leaves the arrays", "statement": "For every scalar type, including floating point with NaN and infinities in axes, data or point, Interp on a completely built grid returns a value (or, with bound checking, throws runtime_error): no index leaves the axes or the data, in debug and release builds.", "quantifier": "every scalar type with arbitrary comparison results, dimension, axes accepted by the constructor, data, point", "why_tests_cant": "The quantifier ranges over infinitely many real inputs and tables of any size; a test fixes one table and a few points.", "anchors": ["src/MathUtils/thirdparty/linterp.h: NDInterpolator::find_cell, InterpMultilinear::interp", "src/MathUtils/RegularGridInterpolator.h: Interp"]}
{"id": "C87", "title": "linspace in IEEE double", "statement": "In binary64, when stop-start does not overflow and the spacing is not subnormal, linspace returns num finite values that all lie in [start,stop], start with start, end with stop, never decrease, and are each within 2^-53*(4*(stop-start)+max(|start|,|stop|)) of the exact grid point. With a subnormal spacing points can exceed stop.", "quantifier": "every pair of finite doubles start<=stop, every num from 2 to 2^32-1, both build modes", "why_tests_cant": "The quantifier ranges over infinitely many real inputs and tables of any size; a test fixes one table and a few points.", "anchors": ["src/MathUtils/VectorGeneration.h: linspace"]}
{"id": "C88", "title": "Angle units", "statement": "_GetTrigo returns (cos,sin) of the angle, converting degrees with pi/180, so the pair is on the unit circle; STRING2ANGLE accepts exactly DEG and RAD and otherwise terminates the program with exit status 1.", "quantifier": "every angle, every string", "why_tests_cant": "The quantifier ranges over infinitely many real inputs and tables of any size; a test fixes one table and a few points.", "anchors": ["src/MathUtils/Angles.h: _GetTrigo, STRING2ANGLE"]}
{"id": "C89", "title": "1D interpolator factory", "statement": "MakeInterp1d supports exactly LINEAR, LINEAR_EXTRAPOLATE and LINEAR_SATURATE; BSPLINE and any other method terminate the program with exit status 1. Evaluating (or asking the bounds of) a created interpolator before Initialize is undefined behaviour.", "quantifier": "every method value, scalar type, table and point, both build modes", "why_tests_cant": "The quantifier ranges over infinitely many real inputs and tables of any size; a test fixes one table and a few points.", "anchors": ["src/MathUtils/Interp1d.h: Interp1d::MakeInterp1d, Initialize, Eval, GetXmin, GetXmax"]}
{"id": "C90", "title": "Integrate1d does not compare the number of points with the data (defect)", "statement": "An Integrate1d object built on a vector of n values and told nb points sums the first nb-1 values with the weights of an nb-point rule and the last value of the whole vector; it reads out of bounds exactly when the vector is empty or nb > n+1; zero points on a function read out of bounds. The intended claim (the value of the trapezoidal rule on the given data, or an error) is refuted.", "quantifier": "every vector, bounds and number of points", "why_tests_cant": "The quantifier ranges over infinitely many real inputs and tables of any size; a test fixes one table and a few points.", "anchors": ["src/MathUtils/Integration1d.h: Integrate1d(vector,...), ComputeTrapz"]}
{"id": "C91", "title": "Rotation matrix to quaternion", "statement": "RotationMatrixToQuaternion of a rotation matrix is a unit quaternion whose rotation matrix is the given one; starting from a unit quaternion q, quaternionToRotationMatrix then RotationMatrixToQuaternion gives q or -q. (The body is Eigen's constructor, modelled from its published algorithm.)", "quantifier": "every rotation matrix (all four branches), every unit quaternion", "why_tests_cant": "The quantifier ranges over infinitely many real inputs and tables of any size; a test fixes one table and a few points.", "anchors": ["src/MathUtils/Geometry.h: RotationMatrixToQuaternion, quaternionToRotationMatrix"]}
{"id": "C92", "title": "NED velocity from local speeds", "statement": "GetNEDVelocityVector returns the vector whose components along the heading and across it are the longitudinal and lateral speeds converted to the output unit; its norm is the converted speed. SetNEDFromLocal is the projection of (x,y).", "quantifier": "every pair of speeds, every angle in both units, every pair of speed units", "why_tests_cant": "The quantifier ranges over infinitely many real inputs and tables of any size; a test fixes one table and a few points.", "anchors": ["src/MathUtils/Vector2d.h: GetNEDVelocityVector, SetNEDFromLocal"]}
{"id": "C93", "title": "Projected angles of a 3-D vector", "statement": "GetProjectedAngleAroundX/Y/Z return the polar angle, in (-pi,pi] (scaled for degrees), of the projection on the YZ plane from y, on the ZX plane from z and on the XY plane from x.", "quantifier": "every vector, both units", "why_tests_cant": "The quantifier ranges over infinitely many real inputs and tables of any size; a test fixes one table and a few points.", "anchors": ["src/MathUtils/Vector3d.h: GetProjectedAngleAroundX, GetProjectedAngleAroundY, GetProjectedAngleAroundZ"]}
{"id": "C94", "title": "Normalize, IsUnit, outer and inner of Vector3d", "statement": "Normalize of a non-zero vector is a positive multiple of it with norm 1, on which IsUnit answers true and Normalize changes nothing; the zero vector is left alone and is not a unit. IsUnit is true iff the norm is within 1.001e-5 of 1. outer(v,w) maps x to (w.x) v, outer(v,w) transposed is outer(w,v), inner is the scalar product.", "quantifier": "every vector", "why_tests_cant": "The quantifier ranges over infinitely many real inputs and tables of any size; a test fixes one table and a few points.", "anchors": ["src/MathUtils/Vector3d.h: Normalize, IsUnit, outer, inner; src/MathUtils/Check.h: IsClose"]}
{"id": "C95", "title": "QR and LU factors", "statement": "Given correct raw factorisations, GetQRDecomposition returns Q with orthonormal columns and square upper triangular R with A=QR; GetFullQRDecomposition returns the full orthogonal Q and the same square R, so A is the first cols() columns of Q times R; both need rows()>=cols() (abort in debug builds, out-of-bounds block otherwise). GetLUDecomposition returns a permutation matrix P, unit lower triangular L and upper triangular U with PA=LU.", "quantifier": "every size and matrix, both build modes", "why_tests_cant": "The quantifier ranges over infinitely many real inputs and tables of any size; a test fixes one table and a few points.", "anchors": ["src/MathUtils/Matrix.h: GetQRDecomposition, GetFullQRDecomposition, GetLUDecomposition"]}
{"id": "C96", "title": "IsPositiveSemiDefinite", "statement": "For a symmetric matrix IsPositiveSemiDefinite(eps) answers true iff x.Ax > -eps |x|^2 for every non-zero x; for non-symmetric matrices the answer can be true although the quadratic form is negative.", "quantifier": "every size, every symmetric matrix, every tolerance", "why_tests_cant": "The quantifier ranges over infinitely many real inputs and tables of any size; a test fixes one table and a few points.", "anchors": ["src/MathUtils/Matrix.h: IsPositiveSemiDefinite"]}
{"id": "C97", "title": "Accuracy of E1_approximation", "statement": "In exact arithmetic on the coefficients as written, E1_approximation(x) has relative error at most 1e-16 for x below 1, between 5.6e-10 and 1.47e-9 (always too large) for x in [1,4), and between -2e-15 and 9.5e-4 from 4 on, with respect to the integral of exp(-t)/t from x to infinity.", "quantifier": "every real x above 1e-8", "why_tests_cant": "The quantifier ranges over infinitely many real inputs and tables of any size; a test fixes one table and a few points.", "anchors": ["src/MathUtils/BoostFunctions.h: E1_approximation"]}
{"id": "C98", "title": "Wrong coefficients in E1_approximation", "statement": "E1_approximation is accurate to 1e-15 as the minimax tables it cites: refuted, the relative error exceeds 5e-10 at every x in [1,10] and 9e-4 at 4. Four coefficients are responsible: with two numerator coefficients (second branch) and two denominator coefficients (third branch) corrected, the relative error is at most 1e-15 or so on each branch.", "quantifier": "every real x in [1,10]; every real x >= 1 for the corrected tables", "why_tests_cant": "The quantifier ranges over infinitely many real inputs and tables of any size; a test fixes one table and a few points.", "anchors": ["src/MathUtils/BoostFunctions.h: E1_approximation (pj, qj)"]}
{"id": "C99", "title": "Accuracy of Ei_approximation and expEi", "statement": "In exact arithmetic on the coefficients as written, Ei_approximation(x) differs from Ei(x), the principal value of the integral of exp(t)/t up to x, by at most 3e-16 for x below 6; on [6,12) it exceeds Ei(x) by a relative error between 9.9e-15 and 2.4e-11; from 12 on the relative error is at most 4e-17 wherever the formula is defined, and expEi has the same accuracy from 24 on.", "quantifier": "every real x above 1e-8", "why_tests_cant": "The quantifier ranges over infinitely many real inputs and tables of any size; a test fixes one table and a few points.", "anchors": ["src/MathUtils/BoostFunctions.h: Ei_approximation, expEi"]}
{"id": "C100", "title": "Wrong coefficient in Ei_approximation", "statement": "Ei_approximation is accurate to 1e-15 as the minimax tables it cites: refuted, at 6 the relative error exceeds 2.3e-11. One coefficient of the second table is responsible: with alphaj[9] = -2.645677793077147237806 the relative error is at most 3e-17 on [6,12].", "quantifier": "x = 6; every real x in [6,12] for the corrected table", "why_tests_cant": "The quantifier ranges over infinitely many real inputs and tables of any size; a test fixes one table and a few points.", "anchors": ["src/MathUtils/BoostFunctions.h: Ei_approximation (alphaj)"]}
{"id": "C101", "title": "Struve functions", "statement": "In exact arithmetic, for x >= 0 Struve_zero_order is within 1.25e-8 and Struve_first_order within 2.5e-9 (x <= 3) or 3e-8 (x > 3) of the Struve functions H_0, H_1, beyond 3 plus the error of Boost's Y_0 or Y_1; Struve_zero_order_derivative is the derivative of H_0 to the accuracy of order 1; no operation is undefined. For exactly the negative arguments, where H_0 is odd and H_1 even, the program ends with status 0.", "quantifier": "every real x, every function standing for Boost's Y with any error", "why_tests_cant": "The quantifier ranges over infinitely many real inputs and tables of any size; a test fixes one table and a few points.", "anchors": ["src/MathUtils/BoostFunctions.h: Struve_zero_order, Struve_first_order, Struve_zero_order_derivative"]}
{"id": "C102", "title": "FFT wrapper", "statement": "fft returns the discrete Fourier transform of a real signal (all n bins, or bins 0..n/2 with the half spectrum); ifft of it returns the signal (times n when scaling is off) whatever calls set the flags before, provided the spectrum is complete or n is even; with the half spectrum and n odd (defect) one sample is lost and n=1 is undefined behaviour. Parseval's identity holds. The frequency overload returns one label per bin, and a sampled sinusoid at the labelled frequency of bin k shows up in bin k only, with amplitude n A/2 and the right phase. Empty vectors are undefined behaviour or length_error.", "quantifier": "every signal, flag history, sampling frequency, amplitude, phase, bin, unit", "why_tests_cant": "The claim is about every sequence of calls, of any length; a test runs one sequence.", "anchors": ["src/MathUtils/FFT.h: FFT::fft, FFT::ifft, HalfSpectrumON/OFF, ScalingON/OFF, GetFrequencyVector"]}
{"id": "C103", "title": "Dirac", "statement": "On a regular increasing grid Dirac sets exactly the sample strictly closer than half a step to the impulse; an impulse midway between two samples is lost, decreasing grids give zeros, irregular grids can set several samples (the first step decides); fewer than two samples are read out of bounds. If the unqualified abs resolves to C's abs(int) every sample closer than 1 is set.", "quantifier": "every grid, impulse position and height", "why_tests_cant": "The quantifier ranges over infinitely many real inputs and tables of any size; a test fixes one table and a few points.", "anchors": ["src/MathUtils/Functions.h: Dirac"]}
{"id": "C104", "title": "Spline", "statement": "Given Eigen's fitting interpolates at its parameters, the Spline built on strictly increasing abscissae takes the given values there, from both constructors; changing origin or scale of the abscissae does not change the curve; a single sample makes every parameter a division by zero; an empty vector aborts (debug) or is undefined.", "quantifier": "every table of at least two points, degree, fitting function, affine change of abscissa", "why_tests_cant": "The quantifier ranges over infinitely many real inputs and tables of any size; a test fixes one table and a few points.", "anchors": ["src/MathUtils/Spline.h: Spline, operator()"]}
{"id": "C105", "title": "Cholesky update and inverse", "statement": "When Eigen's factorisation and rank-one update succeed, GetCholeskyUpdate returns and InPlaceCholeskyUpdate stores a lower triangular L with L L^T = A + sigma v v^T (A symmetric); failure is not reported (defect), and since the object then holds the factor a second in-place update does not update the sum (defect). Inverse/GetInverse give the two-sided inverse.", "quantifier": "every size, matrix, vector, coefficient", "why_tests_cant": "The quantifier ranges over infinitely many real inputs and tables of any size; a test fixes one table and a few points.", "anchors": ["src/MathUtils/Matrix.h: GetCholeskyUpdate, InPlaceCholeskyUpdate, Inverse, GetInverse"]}
{"id": "C106", "title": "Polynomial evaluation in double", "statement": "In binary64 the value returned by Horner's scheme for a polynomial of degree n, when finite, differs from the exact value by at most ((1+u)^(2n)-1) sum|c_i||x|^i plus an underflow term, u=2^-53; the derivative likewise; integer coefficients and argument give the exact value as long as sum|c_i||x|^i stays below 2^53.", "quantifier": "every coefficient list and argument in double", "why_tests_cant": "The quantifier ranges over infinitely many real inputs and tables of any size; a test fixes one table and a few points.", "anchors": ["src/MathUtils/Polynomial.h: Horner, Horner_derivative", "src/MathUtils/PowerSeries1d.h: PowerSeries1d"]}
{"id": "C107", "title": "1D interpolation in double", "statement": "In binary64 the interpolated value, when finite, is within 11 u Y M/D plus an underflow term of the chord (Y sum of the absolute ordinates, M largest absolute abscissa, D width of the cell, u=2^-53), and it is finite unless these quantities are extreme; integer data on cells whose width is a power of two are interpolated exactly. A NaN query passes the range check and returns NaN. The claims 'samples are reproduced', 'a constant table gives the constant', 'a cell of any width works' and 'the debug checks reject unordered abscissae' are false in double.", "quantifier": "every table of doubles, method, build mode, point of a cell", "why_tests_cant": "The quantifier ranges over infinitely many real inputs and tables of any size; a test fixes one table and a few points.", "anchors": ["src/MathUtils/Interp1d.h: Interp1dLinearBase::Initialize, Eval"]}
{"id": "C108", "title": "Unit conversions in double", "statement": "In binary64 convert_velocity_unit, convert_frequency, deg2rad and rad2deg return a finite number within 5u, 13u, 4u and 4u relative error of the exact conversion (exact pi), and a round trip between two units stays within 9u, 25u and 7u of the start. The claims 'a speed converted to its own unit is unchanged' and 'degrees to radians and back is the identity' are false in double.", "quantifier": "every double between 2^-900 and 2^900 in absolute value (2^850 for round trips), every pair of units", "why_tests_cant": "The quantifier ranges over infinitely many real inputs and tables of any size; a test fixes one table and a few points.", "anchors": ["src/MathUtils/Unit.h: convert_velocity_unit, convert_frequency, deg2rad, rad2deg", "src/MathUtils/Constants.h"]}
{"id": "C109", "title": "Tolerance comparisons", "statement": "IsEqual(other, eps) of vectors and matrices is a relative test: it returns true exactly when the Euclidean distance is at most |eps| times the smaller of the two norms; it is symmetric, reflexive, independent of a common scale factor and of the sign of eps, and operands of different sizes abort (debug) or are undefined (release). Consequently nothing but an exact zero equals the zero vector, whatever eps, vectors closer than eps can be different, and the relation is not transitive. IsIdentity(eps) implies that every entry is within eps of the identity, and is implied by entries within eps/(1+eps); it also accepts rectangular matrices. In double a finite vector equals itself for eps between 2^-500 and 2^500 even if its norm overflows, a vector holding NaN or an infinity never does, and with eps = 0 a long finite vector can differ from itself.", "quantifier": "every pair of vectors or matrices of any size, every tolerance, both build modes", "why_tests_cant": "The quantifier ranges over infinitely many real inputs and tables of any size; a test fixes one table and a few points.", "anchors": ["src/MathUtils/Vector3d.h: IsEqual", "src/MathUtils/Vector2d.h: IsEqual", "src/MathUtils/Vector6d.h: IsEqual", "src/MathUtils/VectorN.h: IsEqual", "src/MathUtils/Matrix.h: IsEqual, IsIdentity, IsSquare", "src/MathUtils/Matrix33.h: IsEqual, IsIdentity", "src/MathUtils/Matrix66.h: IsEqual, IsIdentity"]}
{"id": "C110", "title": "Comparisons, saturation, step and ramp in double", "statement": "In double, IsClose decides |a-b| <= atol + rtol |b| up to four roundings; NaN is close to nothing and an infinity is not close to itself nor (as first argument) to a finite number, but every finite number is close to an infinity given as second argument. Saturate returns one of its three arguments, stays between the bounds for ordered bounds (infinities included) and lets NaN through; sgn and Heaviside are exact, NaN having sign 0 and counting as the step itself. Ramp is exact on both plateaus, has a bounded rounding error on the slope, gives the right plateau for NaN, and can miss its right value at x_max.", "quantifier": "every double including NaN and infinities, every sample vector, both build modes", "why_tests_cant": "The quantifier ranges over infinitely many real inputs and tables of any size; a test fixes one table and a few points.", "anchors": ["src/MathUtils/Check.h: IsClose", "src/MathUtils/Functions.h: Heaviside, Ramp", "src/MathUtils/Maths.h: sgn, Saturate"]}
{"id": "C111", "title": "RegularGridInterpolator in double", "statement": "In double and every dimension, Interp returns a finite value for every query (NaN and infinities included) whose distance to the multilinear blend at the nearest point of the grid is at most 14 roundings of the largest datum per axis; node data are reproduced exactly when twice the largest datum does not overflow, constant data give exactly the constant. The bound check throws exactly when some coordinate is off its axis, infinities included; a NaN coordinate is silently taken for the last node, with or without bound check. The value can exceed the largest datum by a rounding, and a node with data near the overflow threshold can give NaN.", "quantifier": "every dimension up to 1000, every finite strictly increasing axes whose span does not overflow, every finite data, every double query", "why_tests_cant": "The quantifier ranges over infinitely many real inputs and tables of any size; a test fixes one table and a few points.", "anchors": ["src/MathUtils/RegularGridInterpolator.h: AddCoord, AddVar, Interp", "src/MathUtils/thirdparty/linterp.h: find_cell, InterpMultilinear::interp_vec, linterp_nd_unitcube"]}
{"id": "C112", "title": "Interp2d in double", "statement": "In double, Eval of a bilinear table returns a finite value whose distance to the exact blend of the selected cell is at most 57 roundings of D*X*Y/(dx*dy) (D: sum of the four corner magnitudes, X and Y: largest coordinate magnitudes of the cell, dx and dy: its sides), the factor that makes the result meaningless far from the origin. Integer tables on cells whose sides are powers of two are interpolated exactly. A NaN coordinate aborts in a debug build and gives NaN otherwise. Nodes and constant tables are not reproduced: 0.1 becomes 0.100006103515625 on a unit cell a million units from the origin.", "quantifier": "every finite strictly increasing axes, every finite data, every query in the table, with coordinates below 2^100, sides above 2^-100 and data below 2^400", "why_tests_cant": "The quantifier ranges over infinitely many real inputs and tables of any size; a test fixes one table and a few points.", "anchors": ["src/MathUtils/Interp2d.h: Interp2dLinear::Initialize, Interp2dLinear::Eval"]}
{"id": "C113", "title": "arange in double", "statement": "In double, arange(start, stop, step) returns as many values as the integer part of (stop-start)/step, where the quotient may be off by three roundings; none is undefined behaviour in a release build, fewer than two abort in a debug build. Two or more values are finite, non-decreasing, start at start, end at the rounded count*step and are evenly spaced within 7 roundings of |start|+count*step. With integer arguments the count is exact. NaN anywhere aborts in debug and is undefined behaviour in release. The count is neither that of the exact quotient (arange(0,1,0.1) has ten elements although 10*0.1 > 1 in double) nor the decimal one (arange(0,0.6,0.2) has two elements).", "quantifier": "every finite start < stop and step > 0 with magnitudes up to 2^1000 and fewer than 2^32-2 steps; every NaN combination", "why_tests_cant": "The quantifier ranges over infinitely many real inputs and tables of any size; a test fixes one table and a few points.", "anchors": ["src/MathUtils/VectorGeneration.h: arange, linspace"]}
{"id": "C114", "title": "Trapezoidal rule and convolution in double", "statement": "In double, the trapezoidal rule with a uniform step returns a finite value within 2(n+1) roundings of the exact area of the same samples, measured against the area with absolute values, plus an underflow term; with given abscissas (in any order) within 2(n+2) roundings; a convolution sample within 2(n+2) roundings. Integer samples and step are integrated exactly while twice the sum of magnitudes times the step fits 53 bits. A NaN sample or step gives NaN. The two rules need not agree on the same samples: the constant 0.1 at 0, 1, 2, 3.", "quantifier": "every list of 2 to 2^43 finite samples up to 2^400 in magnitude (2^190 for the convolution factors), every finite step or abscissa list up to 2^400, both build modes; every NaN position", "why_tests_cant": "The quantifier ranges over infinitely many real inputs and tables of any size; a test fixes one table and a few points.", "anchors": ["src/MathUtils/Integration1d.h: Trapz", "src/MathUtils/Convolution.h: NaiveConvolution"]}
{"id": "C115", "title": "Frequencies and sample points by repeated addition, in double", "statement": "In double, entry k of the FFT frequency vector (whole or half) is finite and within 2k+15 roundings of k*fs/n expressed in the requested unit; in hertz the entries start at 0 and increase strictly. Integrate1d evaluates its function at points within 2k+3 roundings of xmin + k*(xmax-xmin)/(n-1), relative to |xmin|+|xmax-xmin|, and returns a finite value within 2(n+2) roundings of the area of the sampled values on the exact grid; the same for given samples. The middle bin need not be half the sampling frequency (12 points at 1 Hz), and the function is evaluated outside [xmin, xmax] (10 points on [0, 1]).", "quantifier": "every transform size up to 2^40 and sampling frequency from 2^-400 to 2^400, every unit; every function bounded by 2^400 on finite doubles, every number of points up to 2^32, all bounds up to 2^400", "why_tests_cant": "The quantifier ranges over infinitely many real inputs and tables of any size; a test fixes one table and a few points.", "anchors": ["src/MathUtils/FFT.h: GetFrequencyVector", "src/MathUtils/Integration1d.h: Integrate1d", "src/MathUtils/Unit.h: convert_frequency"]}
{"id": "C116", "title": "Vectors, amplitudes and signed square roots in double", "statement": "In double, with the IEEE square root: the norm of a 3-vector whose coordinates are at most 2^500, one of them at least 2^-500, is within three roundings of the exact norm; Normalize gives every coordinate within four roundings, a vector whose length is within four roundings of 1, and IsUnit accepts it. A vector with all coordinates up to 2^-538, or with a NaN, is returned unchanged, and one with a coordinate of 2^512 or more becomes the zero vector, so Normalize does not give a unit vector for every non-zero finite vector. The cross product of vectors up to 2^500 is within three roundings of the sums of its products, exactly antisymmetric and zero on equal arguments, but need not be orthogonal to its factors; the inner product is within four roundings of the sum of its products and exactly symmetric. The infinity norm is exact. Amplitude is within 2.5 roundings when a part is between 2^-500 and 2^500, but overflows for a modulus of 2^600. SgnSqrt is within one rounding for every finite double and odd.", "quantifier": "every pair of 3-vectors of doubles in the stated ranges, every list of complex doubles, every finite double", "why_tests_cant": "The quantifier ranges over infinitely many real inputs and tables of any size; a test fixes one table and a few points.", "anchors": ["src/MathUtils/Vector3d.h: infNorm, Normalize, IsUnit, inner", "src/MathUtils/Complex.h: Amplitude", "src/MathUtils/Maths.h: SgnSqrt", "src/MathUtils/Integration2dTriangle.h: Integration2dTriangle::Compute"]}
{"id": "C117", "title": "Rotations and projections between frames in double", "statement": "In double, with a sine and a cosine accurate to kappa*2^-53 (kappa up to 1000): the matrix built from any finite Euler angles is Rz(yaw) Ry(pitch) Rx(roll) entry by entry within (6*kappa+7) roundings, orthogonal and of determinant 1 within 7 and 19 times that; the quaternion is within (6*kappa+7) roundings of a unit quaternion of the same rotation; the matrix of any quaternion is that of v -> q v q* within 17 roundings of the square of its largest coefficient, and the two ways from Euler angles to a matrix agree within (48*kappa+73) roundings. The pitch of a quaternion is not always a number: a quaternion of unit length within 4 roundings makes the arc sine NaN. ProjectLocalOnNED and ProjectNEDOnLocal, and the four axis projections, turn the vector by the angle, in degrees or radians, within (2*kappa+5+9*|angle in radians|) roundings of the largest coordinate; projecting there and back restores the vector within (8*kappa+17) roundings, whatever the angle.", "quantifier": "every finite Euler angles, every quaternion with coefficients up to 2^400, every vector with coordinates up to 2^899, every finite angle, both units, every sine and cosine of the stated accuracy", "why_tests_cant": "The quantifier ranges over infinitely many real inputs and tables of any size; a test fixes one table and a few points.", "anchors": ["src/MathUtils/Geometry.h: eulerAnglesZYXToRotationMatrix, eulerAnglesZYXToQuaternion, quaternionToRotationMatrix, quaternionToEulerAnglesZYX", "src/MathUtils/Vector2d.h: ProjectLocalOnNED, ProjectNEDOnLocal, ProjectOnNorthAxis, ProjectOnEastAxis, ProjectOnLocalXAxis, ProjectOnLocalYAxis", "src/MathUtils/Angles.h: _GetTrigo"]}
{"id": "C118", "title": "Nearest and surrounding grid nodes in double", "statement": "In double, Nearest returns along each axis the nearest coordinate (ties to the larger; infinities to the ends), for every grid whose coordinates can be doubled without overflow, with one exception: when the query is the rounded middle of a cell and that middle was rounded down, the upper end is returned; the answer is then farther than the nearest node by at most two roundings of the coordinates. So Nearest at a grid node does not always return that node, and on axes near the top of the range the farther end of a cell can be returned. A NaN coordinate, and nothing else, makes Nearest read past the end of an axis. GetSurroundingGridNodes finds the exact cell of every finite point inside the grid, and gives the last index of an axis for every coordinate outside it, infinite or NaN.", "quantifier": "every grid of any dimension, every data, every query including infinities and NaN, both builds", "why_tests_cant": "The quantifier ranges over infinitely many real inputs and tables of any size; a test fixes one table and a few points.", "anchors": ["src/MathUtils/RegularGridNearest.h: RegularGridNearest::Nearest, RegularGridNearest::GetSurroundingGridNodes"]}
{"id": "C119", "title": "Power and Chebyshev series in double", "statement": "In double, the power series of one, two and three variables and the Chebyshev series of one, two and three variables, on segments and half-lines, return a finite value. Its distance to the exact series at the exact unit coordinate is at most a bound proportional to the sum of the magnitudes of the coefficients. The factor is linear in the number of coefficients for power series, quadratic in the order for Chebyshev series (Clenshaw recurrence), and the factors of the axes add. It contains the conditioning of each segment, five times its largest end over its length: on the segment [2^52, 2^52+1] the series t evaluates to 0 at the lower end instead of -1, so no bound independent of the segment holds.", "quantifier": "every finite coefficients, any number of them within the stated error budget, every point of every usable segment or half-line, both builds", "why_tests_cant": "The quantifier ranges over infinitely many real inputs and tables of any size; a test fixes one table and a few points.", "anchors": ["src/MathUtils/PowerSeries1d.h: PowerSeries1dBase::Evaluate", "src/MathUtils/PowerSeries2d.h: PowerSeries2dBase::Evaluate", "src/MathUtils/PowerSeries3d.h: PowerSeries3dBase::Evaluate", "src/MathUtils/ChebyshevSeries1d.h: ChebyshevSeries1dBase::Evaluate", "src/MathUtils/ChebyshevSeries2d.h: ChebyshevSeries2dBase::Evaluate", "src/MathUtils/ChebyshevSeries3d.h: ChebyshevSeries3dBase::Evaluate"]}
{"id": "C120", "title": "Interpolators after a failed Initialize", "statement": "Initialize with an empty table throws and leaves every answer of the interpolator unchanged. In a release build a vector of ordinates that is too short also throws, but the interpolator then answers over the new abscissae with the chords of the old table, and initialising again with good data keeps the chords of the refused table in its first cells. In two variables an empty x axis changes nothing; an empty y axis throws, changes the limits in x, and release builds then answer cell (i, j) with the patch of cell (0, j - i) or throw when i > j; too few data throw and leave the old patches, found by rank, over the new axes. The strong exception guarantee is refuted.", "quantifier": "every interpolator in any state, every pair of tables, every abscissa", "why_tests_cant": "The claim is about every sequence of calls, of any length; a test runs one sequence.", "anchors": ["src/MathUtils/Interp1d.h: Interp1d::Initialize", "src/MathUtils/Interp1d.h: Interp1dLinearBase::Initialize", "src/MathUtils/Interp1d.h: Interp1dLinearBase::PrivEval", "src/MathUtils/Interp2d.h: Interp2d::Initialize", "src/MathUtils/Interp2d.h: Interp2dLinear::Initialize, Eval"]}
{"id": "C121", "title": "Limits of grid axes", "statement": "GetCoordMinVal and GetCoordMaxVal return the smallest and largest coordinate of the axis, for RegularGridNearest in whatever order the coordinates were given. An axis number beyond the dimension ends the process. So does an axis added to a complete RegularGridNearest, or its data given before the last axis (code 1). Before AddVar the interpolator reports itself not valid; its axes can be read, its limits, interpolated values and elements cannot.", "quantifier": "every number of axes, every axes, every axis number, every object state for the guard", "why_tests_cant": "The quantifier ranges over infinitely many real inputs and tables of any size; a test fixes one table and a few points.", "anchors": ["src/MathUtils/RegularGridInterpolator.h: RegularGridInterpolator::GetCoordMinVal", "src/MathUtils/RegularGridInterpolator.h: RegularGridInterpolator::GetCoordMaxVal", "src/MathUtils/RegularGridInterpolator.h: RegularGridInterpolator::IsValid", "src/MathUtils/RegularGridNearest.h: RegularGridNearest::GetCoordMinVal", "src/MathUtils/RegularGridNearest.h: RegularGridNearest::GetCoordMaxVal"]}
{"id": "C122", "title": "Size reported by the 2D table", "statement": "After any sequence of calls on a LookupTable2d, GetNbSample is the product of the lengths of the abscissae and ordinates last set, independently of the series added; it dereferences a null pointer when one of the axes was never set.", "quantifier": "every sequence of calls", "why_tests_cant": "The claim is about every sequence of calls, of any length; a test runs one sequence.", "anchors": ["src/MathUtils/LookupTable2D.h: LookupTable2d::GetNbSample"]}
{"id": "C123", "title": "Pow2", "statement": "Pow2(p+q) = Pow2(p)*Pow2(q), Pow2(1) = 2, and every result fits an unsigned 32-bit integer, for exponents below 32; from 32 on the shift is undefined.", "quantifier": "every pair of exponents", "why_tests_cant": "The quantifier ranges over infinitely many real inputs and tables of any size; a test fixes one table and a few points.", "anchors": ["src/MathUtils/FFT.h: Pow2"]}
{"id": "C124", "title": "E1_approximation in double", "statement": "In double arithmetic, with exp and log within 4 roundings, E1_approximation(x) is finite and within 5e-14 (relative) of the exponential integral for x below 1; on [1,4) it is too large by 5.59e-10 to 1.471e-9, from 4 to 690 by at most 9.51e-4 and at least 5.9e-6 up to 10 and 9.24e-4 at 4. The process ends exactly on the arguments up to the double nearest to 1e-8. Any rounding of the literals gives the same bounds.", "quantifier": "every finite double up to 690, every mathematical library with the stated accuracy, every rounding of the coefficient literals", "why_tests_cant": "The quantifier ranges over infinitely many real inputs and tables of any size; a test fixes one table and a few points.", "anchors": ["src/MathUtils/BoostFunctions.h: E1_approximation", "src/MathUtils/Polynomial.h: Horner", "src/MathUtils/Check.h: IsClose"]}
{"id": "C125", "title": "Ei_approximation and expEi in double", "statement": "In double arithmetic, with exp and log within 4 roundings, Ei_approximation(x) is finite and, for x below 6, within 8e-14 (1 + |ln x| + |Ei x|) of the exponential integral; on [6,12) its relative error is between -8e-14 and 2.42e-11 (above 2.35e-11 at 6); on [12,24), where exact arithmetic divides by zero once, below 9e-15; from 24 to 690 below 3e-15. expEi(x) is within 3e-15 of exp(-x) Ei(x) from 24 to 1e290. The process ends exactly on the arguments up to the double nearest to 1e-8. Any rounding of the literals of the continued fractions gives the same bounds.", "quantifier": "every finite double in the stated ranges, every mathematical library with the stated accuracy, every rounding of the coefficient literals of the continued fractions", "why_tests_cant": "The quantifier ranges over infinitely many real inputs and tables of any size; a test fixes one table and a few points.", "anchors": ["src/MathUtils/BoostFunctions.h: Ei_approximation, expEi, Chebyshev_polynomial_shifted", "src/MathUtils/Check.h: IsClose"]}
{"id": "C126", "title": "3D power series with coefficient matrices of unequal shapes", "statement": "The number of x powers is the row count of the first matrix and the number of y powers is the column count of each matrix, so wider matrices count in full and extra rows are ignored. A matrix with fewer rows than the first makes every evaluation and derivative read out of range (abort in a debug build, undefined behaviour in release); a matrix smaller than the first in either direction does so for the coefficients at a fixed z, and so does a caller's coefficient matrix with too few rows. With a wider later matrix, evaluating directly and through the fixed-z coefficients both succeed and differ. An empty list makes the constructor throw, a first matrix without rows or columns makes the evaluation throw.", "quantifier": "every list of coefficient matrices, every axis kind, every point, both builds; the out-of-range statements in any arithmetic", "why_tests_cant": "The quantifier ranges over infinitely many real inputs and tables of any size; a test fixes one table and a few points.", "anchors": ["src/MathUtils/PowerSeries3d.h: PowerSeries3d, Evaluate, Evaluate_derivative_x, Evaluate_derivative_y, Evaluate_derivative_z, Evaluate_f_dfdx_dfdy, Compute_cij, Evaluate_z_predefined"]}
{"id": "C127", "title": "Derivatives of power series in double", "statement": "In double arithmetic, on segments and half-lines of moderate extent, each derivative of a power series of one, two or three variables is finite and within the accumulated relative error of the exact derivative of the exact series, relative to the rate of the unit coordinate times the sum of the coefficient magnitudes weighted by their exponents. In any arithmetic the call returning the value and two derivatives returns exactly what the three separate calls return. On a half-line starting at 2^600 the square of the coordinate overflows: the derivative of t is 2^-599 and the double result is 0.", "quantifier": "every finite coefficient set within range, every usable axis and point, both builds; the combined call in every arithmetic", "why_tests_cant": "The quantifier ranges over infinitely many real inputs and tables of any size; a test fixes one table and a few points.", "anchors": ["src/MathUtils/PowerSeries1d.h: Evaluate_derivative_x", "src/MathUtils/PowerSeries2d.h: Evaluate_derivative_x, Evaluate_derivative_y", "src/MathUtils/PowerSeries3d.h: Evaluate_derivative_x, Evaluate_derivative_y, Evaluate_derivative_z, Evaluate_f_dfdx_dfdy, Evaluate_f_dfdx_dfdy_z_predefined", "src/MathUtils/Polynomial.h: Horner_derivative"]}
{"id": "C128", "title": "Triangle quadrature in double", "statement": "In double arithmetic the integral of a function over a triangle, with any of the orders 1 to 8, is finite and within rounding of the same rule in exact arithmetic: the error is at most the area times the error of the integrand (its evaluation error plus its slope times the rounding of the quadrature points) times the sum of the absolute weights, plus 500 units of rounding of the integrand bound times the squared coordinate bound. For polynomials of degree at most the order it is as close to the true surface integral. The error is relative to the squared coordinates, not to the area: a sliver with coordinates at most 2 and positive area integrates the constant 1 to 0.", "quantifier": "every integrand approximated by a function with a slope bound, every order 1..8, every triangle with coordinates bounded by M in [2^-200, 2^200], every correctly rounded square root", "why_tests_cant": "The quantifier ranges over infinitely many real inputs and tables of any size; a test fixes one table and a few points.", "anchors": ["src/MathUtils/Integration2dTriangle.h: tables, Compute, ComputeOverStandardTriangle"]}
{"id": "C129", "title": "Derivatives of Chebyshev series in double", "statement": "In double arithmetic, on segments and half-lines of moderate extent, each partial derivative of a Chebyshev series of one, two or three variables is finite and within the accumulated relative error of the exact derivative of the exact series with the same coefficients, relative to the rate of the unit coordinate times the sum of the coefficient magnitudes weighted by the squares of their orders along that axis (the largest slopes of the polynomials). The error grows with the square of the order, not with its exponential, although the three-term recurrence amplifies individual rounding errors linearly.", "quantifier": "every order, every finite coefficient set within range, every usable axis and point", "why_tests_cant": "The quantifier ranges over infinitely many real inputs and tables of any size; a test fixes one table and a few points.", "anchors": ["src/MathUtils/ChebyshevSeries1d.h: Evaluate_derivative_x", "src/MathUtils/ChebyshevSeries2d.h: Evaluate_derivative_x, Evaluate_derivative_y", "src/MathUtils/ChebyshevSeries3d.h: Evaluate_derivative_x, Evaluate_derivative_y, Evaluate_derivative_z", "src/MathUtils/BoostFunctions.h: Chebyshev_polynomial, Chebyshev_polynomial_derivative"]}
{"id": "C130", "title": "Simplex interpolation in double", "statement": "In double arithmetic the simplex interpolation of N-dimensional grid data answers every query (infinities and NaN included) with a finite value, whichever order the sort leaves for tied coordinates: it never leaves the range of the data by more than 8 roundings of the largest value per axis, reproduces affine data at the nearest grid point within the error of the data and 16 roundings per axis, gives constants exactly, and returns node data within 8 roundings of the largest value per axis. Node data are not reproduced exactly: next to the value 2^60 the node value 1 is returned as 0 (the multilinear interpolation of the same data returns 1).", "quantifier": "every number of axes up to 1000, every finite increasing axes and data up to 2^1000, every query, every sort, both builds", "why_tests_cant": "The quantifier ranges over infinitely many real inputs and tables of any size; a test fixes one table and a few points.", "anchors": ["src/MathUtils/thirdparty/linterp.h: InterpSimplex::interp_vec, NDInterpolator::find_cell, NDInterpolator::get_f_val"]}
{"id": "C131", "title": "Logspace, cardinal sine and velocity transport in double", "statement": "In double arithmetic: logspace returns the requested number of finite values, each within kappa+1 roundings plus the rounding of its exponent (2|ln base| times the grid error) of the exact power, both ends as accurate as pow itself; Sinc returns sin(v)/v within kappa+2 roundings (relative to 1/max(1,|v|)) and exactly 1 at both zeros, and over a range is within the grid error of the cardinal sine at the exact points; TransportAtPoint (in place, with output reference, and as a function) returns v + 2*pi*f x p with each component within one rounding of |v| and 17 roundings of |2*pi*f*p|, the rotation rate being given in any unit, and writes nothing else.", "quantifier": "every library with a sine and a pow accurate to kappa <= 1000 roundings; every finite grid with a normal spacing, every positive base with |exponent*ln base| <= 700; every finite argument of Sinc; every vector and rate of magnitude up to 2^400, every unit", "why_tests_cant": "The quantifier ranges over infinitely many real inputs and tables of any size; a test fixes one table and a few points.", "anchors": ["src/MathUtils/VectorGeneration.h: logspace", "src/MathUtils/Functions.h: Sinc", "src/MathUtils/Vector2d.h: TransportAtPoint"]}
{"id": "C132", "title": "Chebyshev coefficients and interpolation in double", "statement": "In double arithmetic the Chebyshev classes of one, two and three variables sample the function at doubles within rounding of the nodes of each axis; every computed coefficient is finite and within 2^d*e*M of the normalised sum of those samples against the Chebyshev polynomials (d variables, M a bound on the samples, e = sum over the axes of (n+1)^2*(4*kappa+100) roundings); and the series evaluated at any point of its axes is within (number of coefficients)*(2^d*e + c*evaluation error)*M of the polynomial of the unit coordinates that takes the sampled values at the nodes.", "quantifier": "every library with a cosine accurate to kappa <= 1000 roundings; every function finite and at most M near the nodes, M between 2^-900 and 2^600; every mixture of finite segments and half-lines with ends and length between 2^-900 and 2^900 in magnitude; every order with e <= 1/10; every coefficient; every point of the axes", "why_tests_cant": "The quantifier ranges over infinitely many real inputs and tables of any size; a test fixes one table and a few points.", "anchors": ["src/MathUtils/ChebyshevSeries1d.h: Compute_ai, Evaluate", "src/MathUtils/ChebyshevSeries2d.h: Compute_aij, Evaluate", "src/MathUtils/ChebyshevSeries3d.h: Compute_aijk, Evaluate"]}
{"id": "C133", "title": "Conversion of a Chebyshev series to a power series in double", "statement": "In double arithmetic the table used to convert Chebyshev series to power series holds the integer coefficients of the Chebyshev polynomials without error up to order 18. The computed power coefficients in one, two and three variables are finite and within 32, 64 and 96 roundings (relative to the sum of the magnitudes of their terms) of the exact power coefficients, and a power series built on them, evaluated anywhere on its axes, is within (3*evaluation error + 32, 64 or 96 roundings)*W of the Chebyshev sum, W being the sum of those magnitudes over all coefficients.", "quantifier": "every library whose pow is exact on integers when the result is a double; every order up to 18 along each axis; every set of finite coefficients with W at most 2^799; every mixture of finite segments and half-lines of moderate size; every point of the axes", "why_tests_cant": "The quantifier ranges over infinitely many real inputs and tables of any size; a test fixes one table and a few points.", "anchors": ["src/MathUtils/ChebyshevSeries1d.h: Compute_bi, TransformationCoefficient", "src/MathUtils/ChebyshevSeries2d.h: Compute_bij", "src/MathUtils/ChebyshevSeries3d.h: Compute_bijk", "src/MathUtils/PowerSeries1d.h: Evaluate", "src/MathUtils/PowerSeries2d.h: Evaluate", "src/MathUtils/PowerSeries3d.h: Evaluate"]}
{"id": "C134", "title": "3D power series at a fixed z and at infinite z, in double", "statement": "In double arithmetic the matrix of coefficients computed for a fixed z (or for infinite z) is finite and each entry is within a few roundings of the exact coefficient of the series at that z, relative to the sum of the magnitudes in its column. The value, the x derivative and the combined value and two derivatives computed from that matrix are within the stated relative error of the value and derivatives of the exact 3D series at that z; so is the separate y derivative when the y axis is a segment. The direct calls at infinite z (value, x derivative, y derivative) return the value and derivatives of the exact series at unit coordinate 1 within the same kind of error.", "quantifier": "every build type; every nonempty list of equally sized nonempty matrices of finite coefficients of moderate size; every mixture of finite segments and half-lines of moderate size; every point of the axes", "why_tests_cant": "The quantifier ranges over infinitely many real inputs and tables of any size; a test fixes one table and a few points.", "anchors": ["src/MathUtils/PowerSeries3d.h: Compute_cij", "src/MathUtils/PowerSeries3d.h: Compute_cij_zinf", "src/MathUtils/PowerSeries3d.h: Evaluate_z_predefined", "src/MathUtils/PowerSeries3d.h: Evaluate_derivative_x_z_predefined", "src/MathUtils/PowerSeries3d.h: Evaluate_derivative_y_z_predefined", "src/MathUtils/PowerSeries3d.h: Evaluate_f_dfdx_dfdy_z_predefined", "src/MathUtils/PowerSeries3d.h: Evaluate_zinf", "src/MathUtils/PowerSeries3d.h: Evaluate_derivative_x_zinf", "src/MathUtils/PowerSeries3d.h: Evaluate_derivative_y_zinf"]}
{"id": "C135", "title": "Local velocities, projected angles, Bessel derivatives and the sampled impulse in double", "statement": "In double arithmetic, with the errors of the mathematical library as parameters: speeds given along and across a direction, turned to north-east components and converted between speed units, are finite and within a few roundings (plus the effect of rounding the angle) of the exact turned and converted vector, zero components included. The three projected angles of a 3-D vector, in radians or degrees, are within 2*kappa+18 roundings of a polar angle of the projection. The derivatives of the Bessel functions of integer order (J, Y, I, K and the Hankel function) are the exact derivatives within the errors of the function at the two orders used and 6 roundings of the terms. The sampled impulse gives the height to samples closer to the impulse than half the first step and zero to farther ones, up to 5 roundings of the half step, and on points from linspace an impulse at one of them sets exactly that one.", "quantifier": "every mathematical library within kappa roundings; every speed from 2^-900 to 2^890 or zero, every finite angle and pair of units; every finite vector; every integer order up to 2^50 and argument between 2^-100 and 2^100 in magnitude; every list of finite samples; every linspace grid whose spacing exceeds a thousand roundings of its ends", "why_tests_cant": "The quantifier ranges over infinitely many real inputs and tables of any size; a test fixes one table and a few points.", "anchors": ["src/MathUtils/BoostFunctions.h: Cyl_Bessel_*_derivative", "src/MathUtils/Vector2d.h: GetNEDVelocityVector, SetNEDFromLocal", "src/MathUtils/Vector3d.h: GetProjectedAngleAroundX, GetProjectedAngleAroundY, GetProjectedAngleAroundZ", "src/MathUtils/Functions.h: Dirac", "src/MathUtils/VectorGeneration.h: linspace"]}
{"id": "C136", "title": "Distance between interpolated values and the sampled function", "statement": "A table filled with the values of a function whose second derivative is at most M in magnitude, with steps at most h, is interpolated within M*h^2/8 of the function at every abscissa of the table; within K*h/2 if the function is only K-Lipschitz. With two variables, and on grids of any dimension, the bounds of the axes add; on a grid a point outside is compared with the function at the nearest point of the box. The nearest-node lookup obeys the Lipschitz bound. In double, with samples known to within delta, the result is within K*D^2/8 + delta + the rounding bound of the function, D being the width of the cell.", "quantifier": "every increasing table and grid of any dimension, every function with the stated bound on the box covered by it, every abscissa or point, debug and release builds, every linear method; in double every finite table and query of a cell of representable width", "why_tests_cant": "The quantifier ranges over infinitely many real inputs and tables of any size; a test fixes one table and a few points.", "anchors": ["src/MathUtils/Interp1d.h: Interp1dLinearBase::PrivEval", "src/MathUtils/Interp2d.h: Interp2dLinear::Initialize, Eval", "src/MathUtils/thirdparty/linterp.h: InterpMultilinear::interp_vec, linterp_nd_unitcube", "src/MathUtils/RegularGridNearest.h: Nearest"]}
{"id": "C137", "title": "Accuracy of Chebyshev series of smooth functions", "statement": "A Chebyshev series of order n computed from a function whose derivative of order n+1 with respect to the unit coordinate of the axis is at most M is within M/(2^n*(n+1)!) of the function at every point of the segment or half-line; on a segment of length L, with derivatives with respect to x, within M*(L/2)^(n+1)/(2^n*(n+1)!). Two functions within e of each other give series within (2n+1)*e of each other. In two and three variables the error is at most E_x + (2m+1)*(E_y + (2n+1)*E_z). In double the same holds after adding the rounding bound of C132 and the error of the samples, amplified by the same factors.", "quantifier": "every order, every function with the stated derivatives on the box, every mixture of segments and half-lines, every point, 1D, 2D and 3D; in double every library with a cosine accurate to kappa <= 1000 roundings and every point of the axes", "why_tests_cant": "The quantifier ranges over infinitely many real inputs and tables of any size; a test fixes one table and a few points.", "anchors": ["src/MathUtils/ChebyshevSeries1d.h: Evaluate", "src/MathUtils/ChebyshevSeries2d.h: Evaluate", "src/MathUtils/ChebyshevSeries3d.h: Evaluate", "src/MathUtils/ChebyshevSeries1d.h: Compute_ai, Evaluate", "src/MathUtils/ChebyshevSeries2d.h: Compute_aij, Evaluate", "src/MathUtils/ChebyshevSeries3d.h: Compute_aijk, Evaluate"]}
{"id": "C138", "title": "Integrals and convolutions of sampled functions", "statement": "A convolution of samples (taken to within dk and ds) of two functions K and S at step h over a length T is within (max|K|*max|S''| + 2*max|K'|*max|S'| + max|K''|*max|S|)*h^2*T/12 + (dk*max|S| + max|K|*ds + dk*ds)*T of the integral of K(t)*S(T-t), or of K(t)*S(t) when the samples are taken in the same order. In double the trapezoidal rule with abscissas or with a step, the integral of a double function over regularly spaced points and the convolution return a finite value within M*h^2*L/12 of the integral of the sampled function, plus the error of the samples times L, plus the rounding bounds of C114 and C115.", "quantifier": "every function twice differentiable on the interval with the stated bounds, every number of samples (up to 2^43 in double, 2^32 for Integrate1d), step, kernel and signal lengths, both orders, debug and release builds", "why_tests_cant": "The quantifier ranges over infinitely many real inputs and tables of any size; a test fixes one table and a few points.", "anchors": ["src/MathUtils/Convolution.h: NaiveConvolution", "src/MathUtils/Integration1d.h: Trapz", "src/MathUtils/Integration1d.h: Integrate1d"]}
{"id": "C139", "title": "Convergence under refinement", "statement": "For a function that is merely continuous on the segment or box (no derivative or Lipschitz bound), and for every tolerance, there is a spacing such that every table, whatever its abscissae, whose consecutive nodes are at most that far apart interpolates within the tolerance everywhere: 1D linear tables, 2D tables, N-dimensional grids (points outside are clamped) and nearest nodes. A 1D table is within w of the function when w is its modulus of continuity at the spacing. Trapz, Integrate1d and NaiveConvolution of samples of continuous functions converge to the integral. Chebyshev series of functions whose k-th derivative is bounded by C*r^k*k! (in the unit coordinate of each axis, segment or half-line) are within C*r*(r/2)^n of the function in 1D, C*r*(2n+2)*(r/2)^n in 2D and C*r*(4n^2+6n+3)*(r/2)^n in 3D, so they converge when r < 2.", "quantifier": "every continuous function, tolerance, dimension, grid or table refined enough, point, build mode; every analytic function with the stated growth, every order n", "why_tests_cant": "The quantifier ranges over infinitely many real inputs and tables of any size; a test fixes one table and a few points.", "anchors": ["src/MathUtils/Interp1d.h: Interp1dLinearBase::PrivEval", "src/MathUtils/Interp2d.h: Interp2dLinear::Initialize, Eval", "src/MathUtils/thirdparty/linterp.h: InterpMultilinear::interp_vec, linterp_nd_unitcube", "src/MathUtils/RegularGridNearest.h: Nearest", "src/MathUtils/ChebyshevSeries1d.h: Evaluate", "src/MathUtils/ChebyshevSeries2d.h: Evaluate", "src/MathUtils/ChebyshevSeries3d.h: Evaluate", "src/MathUtils/ChebyshevSeries1d.h: Compute_ai, Evaluate", "src/MathUtils/ChebyshevSeries2d.h: Compute_aij, Evaluate", "src/MathUtils/ChebyshevSeries3d.h: Compute_aijk, Evaluate", "src/MathUtils/Convolution.h: NaiveConvolution", "src/MathUtils/Integration1d.h: Trapz", "src/MathUtils/Integration1d.h: Integrate1d"]}
{"id": "C140", "title": "Accuracy of triangle quadrature for general integrands", "statement": "For an integrand that is only continuous on the triangle, the quadrature of order d differs from the true surface integral by at most the area times (W+1)*eps plus the table truncation, where eps is the distance of the integrand to any polynomial of degree at most d on the triangle and W the sum of the absolute weights (1, or 2.2 for orders 3 and 7). In particular the error is at most (W+1)*area*w when the integrand varies by at most w, and for every continuous integrand on a box and every tolerance there is a size such that, for every list of triangles of that size inside the box, the quadratures add up to the integral over the mesh within tolerance times total area. In double the same bound holds with the rounding bound of C128 added.", "quantifier": "every continuous integrand, order 1 to 8, triangle (degenerate ones included), mesh of any length, approximating polynomial and double integrand meeting the stated bounds", "why_tests_cant": "The quantifier ranges over infinitely many real inputs and tables of any size; a test fixes one table and a few points.", "anchors": ["src/MathUtils/Integration2dTriangle.h: tables, Compute, ComputeOverStandardTriangle"]}
{"id": "C141", "title": "Accuracy of simplex interpolation", "statement": "The simplex interpolator of the bundled linterp returns the same value for every order in which the sort may leave equal local coordinates. If the table holds the values of F at the nodes, the value returned differs from F (at the point brought back to the box) by at most the sum over the axes of M_k h_k^2/8 when F has bounded second derivatives, of K_k h_k/2 when F is Lipschitz, and tends to F uniformly as the grid is refined when F is only continuous. It is not in general the value of the multilinear interpolator.", "quantifier": "every dimension, grid, table, point inside or outside the box, sampled function and result of the sort", "why_tests_cant": "The quantifier ranges over infinitely many real inputs and tables of any size; a test fixes one table and a few points.", "anchors": ["src/MathUtils/thirdparty/linterp.h: InterpSimplex::interp_vec, NDInterpolator::find_cell, NDInterpolator::get_f_val", "src/MathUtils/thirdparty/linterp.h: InterpSimplex::interp_vec"]}
{"id": "C142", "title": "Grid interpolants preserve slopes", "statement": "Along each axis, the value interpolated on a grid (multilinear or simplex) changes by an amount between m and M times the change of the coordinate (brought back to the axis), where [m, M] contains all slopes of the table between neighbouring nodes of that axis. In particular a table increasing along an axis gives an increasing interpolant, the interpolant is continuous everywhere including across cells and at the border of the box, and the Lipschitz constants of the table along the axes are Lipschitz constants of the interpolant between any two points.", "quantifier": "every dimension, grid, table, axis, pair of points inside or outside the box, and result of the sort", "why_tests_cant": "The quantifier ranges over infinitely many real inputs and tables of any size; a test fixes one table and a few points.", "anchors": ["src/MathUtils/thirdparty/linterp.h: InterpMultilinear::interp_vec, linterp_nd_unitcube", "src/MathUtils/thirdparty/linterp.h: InterpSimplex::interp_vec"]}
{"id": "C143", "title": "Accuracy in double of grid interpolation of sampled functions", "statement": "In IEEE double, for a table whose values are within delta of F at the nodes, the value returned by the multilinear grid interpolator for any query (NaN and infinities included) is finite and differs from F at the nearest point of the box by at most the sum over the axes of M_k h_k^2/8 (bounded second derivatives) or K_k h_k/2 (Lipschitz), plus delta, plus 14 roundings of the largest value per axis; the simplex interpolator likewise with 16 roundings. Whatever the table, the simplex interpolator in double is within 16 roundings per axis of its value in exact arithmetic, even when rounding changes the order of the local coordinates, and any two sorts of equal coordinates give results within 32 roundings per axis.", "quantifier": "every dimension up to 1000, grid and table of finite doubles (axis lengths representable, values up to 2^1000), query, sampled function, and result of the sort", "why_tests_cant": "The quantifier ranges over infinitely many real inputs and tables of any size; a test fixes one table and a few points.", "anchors": ["src/MathUtils/thirdparty/linterp.h: InterpSimplex::interp_vec, NDInterpolator::find_cell, NDInterpolator::get_f_val", "src/MathUtils/RegularGridInterpolator.h: AddCoord, AddVar, Interp", "src/MathUtils/thirdparty/linterp.h: find_cell, InterpMultilinear::interp_vec, linterp_nd_unitcube"]}
{"id": "C144", "title": "Accuracy of tabulated functions", "statement": "After any sequence of calls that registered under a name the values of a function f on its abscissae, LookupTable1D and LookupTable2d answer for that name within M h^2/8 (sum over the two axes in 2D) of f for bounded second derivatives, or K h/2 for Lipschitz f, whatever else was registered before or after. In double the answers of Interp2d and of both tables stay within the discretisation error of the cell, plus the error of the samples, plus an explicit number of roundings. Moving along one axis the 2D interpolant changes by an amount between the smallest and the largest slope of the table along that axis times the distance, also across cells.", "quantifier": "every history of calls, grid, table, sampled function and query inside the table (for double: cells of size 2^-100 to 2^100, values up to 2^400 in 2D)", "why_tests_cant": "The quantifier ranges over infinitely many real inputs and tables of any size; a test fixes one table and a few points.", "anchors": ["src/MathUtils/LookupTable1D.h: AddY, SetX, Eval, GetNbSeries, GetIndex", "src/MathUtils/LookupTable2D.h: AddData, SetX, SetY, Eval, HasSerie", "src/MathUtils/Interp2d.h: Interp2dLinear::Initialize, Eval"]}
{"id": "C145", "title": "Cutting and refining triangles", "statement": "Integrating a continuous function over a triangle or over the two parts obtained by cutting it from a vertex gives the same result up to twice the error of the best polynomial approximation of the announced degree (and, for polynomials of that degree, up to the truncation of the tables); the surface integral used as reference does not depend on the order of the vertices and adds up over the parts. When a triangle is cut in four, n times, the sum of the quadratures over the pieces tends to the integral over the triangle, for every order; where the function is locally within K h^k of polynomials of degree d the error of the rule of order d after n refinements is at most area * (w_d + 1) K (h / 2^n)^k plus the truncation of the tables.", "quantifier": "every triangle, cutting point, order 1 to 8, integrand continuous on the triangle and number of refinements (real arithmetic)", "why_tests_cant": "The quantifier ranges over infinitely many real inputs and tables of any size; a test fixes one table and a few points.", "anchors": ["src/MathUtils/Integration2dTriangle.h: tables, Compute, ComputeOverStandardTriangle"]}
{"id": "C146", "title": "Nearest nodes and tables of sampled functions", "statement": "For a function with slopes at most K_k along the axes, sampled to within delta in double on a grid, the value at the nearest node returned by RegularGridNearest::Nearest for a point of the box is within the sum of K_k (h_k/2 + two roundings of the coordinates) plus delta of the function at the point. LookupTable2d in double answers within half the slopes times the cell sizes plus the sample error plus an explicit number of roundings for Lipschitz functions. As the abscissae registered in a LookupTable1D or a LookupTable2d are refined the answers tend to the tabulated continuous function, uniformly over the points and the histories of calls.", "quantifier": "every grid, table, history of calls, sampled function and finite query point of the box (for double: coordinates whose doubles are representable; in 2D cells of size 2^-100 to 2^100 and values up to 2^400)", "why_tests_cant": "The quantifier ranges over infinitely many real inputs and tables of any size; a test fixes one table and a few points.", "anchors": ["src/MathUtils/RegularGridNearest.h: RegularGridNearest::Nearest, RegularGridNearest::GetSurroundingGridNodes", "src/MathUtils/LookupTable1D.h: AddY, SetX, Eval, GetNbSeries, GetIndex", "src/MathUtils/LookupTable2D.h: AddData, SetX, SetY, Eval, HasSerie"]}
{"id": "C147", "title": "Spectra of combined, delayed and convolved signals", "statement": "The transform of a combination of two signals is the combination of their transforms; a cyclic delay of d samples multiplies bin k by exp(-2 i pi k d / n); bin 0 is the sum of the samples; in the complete spectrum bins k and n - k are conjugate; two signals of the same length with the same returned spectrum are equal, also for the half spectrum of an odd length; the transform of a cyclic convolution is the product of the transforms. Transforming two sequences padded with enough zeros, multiplying and transforming back gives their convolution (times the length when scaling is off), and NaiveConvolution equals the step times the term of that convolution at the end of the kernel with the two end products halved.", "quantifier": "every non-empty signal, length, delay, padding, flag word or history of calls on the FFT object, and every engine meeting the contract", "why_tests_cant": "The quantifier ranges over infinitely many real inputs and tables of any size; a test fixes one table and a few points.", "anchors": ["src/MathUtils/FFT.h: FFT::fft, FFT::ifft, HalfSpectrumON/OFF, ScalingON/OFF, GetFrequencyVector", "src/MathUtils/Convolution.h: NaiveConvolution"]}
{"id": "C148", "title": "Solving systems with the pseudo-inverse", "statement": "When every singular value is zero or above the tolerance, GetPseudoInverse(tol) times b is a least squares solution of A x = b, the shortest one and the only one of that length; it solves the system when there is a solution; it is a left inverse of a matrix with independent columns, a right inverse of a matrix reaching every vector, the inverse of an invertible matrix, and the pseudo-inverse of the pseudo-inverse is the matrix. The result depends on the matrix and the tolerance only, not on the decomposition found. For every matrix and positive tolerance the answer is at most |b| / tol long, a system solved by y is left with a residual of at most tol |y|, and for any z the residual exceeds that of z by at most tol |z|.", "quantifier": "every shape, matrix, right-hand side, thin singular value decomposition and tolerance, over every ordered field", "why_tests_cant": "The quantifier ranges over infinitely many real inputs and tables of any size; a test fixes one table and a few points.", "anchors": ["src/MathUtils/Matrix.h: GetPseudoInverse"]}
{"id": "C149", "title": "What the factors tell about a matrix", "statement": "The determinant of a matrix is the product of the diagonal of the U of GetLUDecomposition with the sign of the row exchanges, and the matrix is invertible exactly when that diagonal has no zero. The Gram determinant is the square of the product of the diagonal of the R of GetQRDecomposition, the columns are independent exactly when it has no zero, and then two factorisations differ by signs only. A symmetric matrix for which GetCholeskyDecomposition returns a factor is positive semi-definite (IsPositiveSemiDefinite answers true for every positive epsilon), its determinant is the square of the product of the diagonal of the factor, it is invertible, and positive definite, exactly when that diagonal has no zero, and factors with positive diagonals are equal.", "quantifier": "every shape, matrix and outcome of Eigen's factorisations meeting the contracts, over every ordered field", "why_tests_cant": "The quantifier ranges over infinitely many real inputs and tables of any size; a test fixes one table and a few points.", "anchors": ["src/MathUtils/Matrix.h: GetQRDecomposition, GetFullQRDecomposition, GetLUDecomposition", "src/MathUtils/Matrix.h: IsSymmetric, GetCholeskyDecomposition", "src/MathUtils/Matrix.h: IsPositiveSemiDefinite"]}
{"id": "C150", "title": "The Chebyshev series as a function of the function", "statement": "Once its coefficients are computed, the Chebyshev series (one, two and three dimensions) of a linear combination of functions is the combination of their series; it depends on the values of the function at the nodes only; the series of a product of functions of separate variables is the product of the one-dimensional series; turning a segment round turns the series round. The series of a series, at the same order or a higher one along each axis, has its coefficients completed with zeros. In one dimension the sum of the squares of the function at the nodes is (n+1) a0^2 + (n+1)/2 (a1^2 + ... + an^2), and two series of the same order on the same axis take the same values exactly when their coefficients are equal.", "quantifier": "every function, axis, order and point of the axis, in exact arithmetic", "why_tests_cant": "The quantifier ranges over infinitely many real inputs and tables of any size; a test fixes one table and a few points.", "anchors": ["src/MathUtils/ChebyshevSeries1d.h: Evaluate", "src/MathUtils/ChebyshevSeries2d.h: Evaluate", "src/MathUtils/ChebyshevSeries3d.h: Evaluate", "src/MathUtils/ChebyshevSeries1d.h: Compute_ai, Evaluate", "src/MathUtils/ChebyshevSeries2d.h: Compute_aij, Evaluate", "src/MathUtils/ChebyshevSeries3d.h: Compute_aijk, Evaluate"]}
{"id": "C151", "title": "Interpolants as functions of their samples", "statement": "Inside the range of the samples, the 1D interpolators, Interp2dLinear and RegularGridInterpolator built from a linear combination of samples give the combination of the values; larger samples give larger values, and samples perturbed by at most e change the values by at most e. In one dimension adding a sample taken from the interpolant changes nothing, nor does a change of unit and origin of the abscissae. In two dimensions exchanging the axes and transposing the table changes nothing.", "quantifier": "every axis, table, linear method, number of dimensions of the grid and point inside, in both builds, in exact arithmetic", "why_tests_cant": "The quantifier ranges over infinitely many real inputs and tables of any size; a test fixes one table and a few points.", "anchors": ["src/MathUtils/Interp1d.h: Interp1dLinearBase::PrivEval", "src/MathUtils/Interp2d.h: Interp2dLinear::Initialize, Eval", "src/MathUtils/thirdparty/linterp.h: InterpMultilinear::interp_vec, linterp_nd_unitcube"]}
{"id": "C152", "title": "Trapezoidal rule and linear interpolation agree", "statement": "Trapz of abscissae and ordinates is the integral of the function computed by a linear 1D interpolator built from the same samples, over the whole range and from any sample to any other; a sample lying on the chord of its neighbours can be left out without changing the result.", "quantifier": "every increasing abscissae, ordinates, linear method and pair of samples, in both builds, in exact arithmetic", "why_tests_cant": "The quantifier ranges over infinitely many real inputs and tables of any size; a test fixes one table and a few points.", "anchors": ["src/MathUtils/Integration1d.h: Trapz, ComputeTrapz", "src/MathUtils/Interp1d.h: Interp1dLinearBase::PrivEval"]}
{"id": "C153", "title": "Grid interpolation one axis at a time", "statement": "Interpolating with RegularGridInterpolator in N+1 dimensions gives the value on the chord between the values given by the interpolators in N dimensions built on the two neighbouring slabs of the data along the first axis; at a node of the first axis it is the value given by that slab alone; an axis along which the data do not vary can be left out.", "quantifier": "every number of axes, axes, data and point inside the grid, in both builds, in exact arithmetic", "why_tests_cant": "The quantifier ranges over infinitely many real inputs and tables of any size; a test fixes one table and a few points.", "anchors": ["src/MathUtils/thirdparty/linterp.h: InterpMultilinear::interp_vec, linterp_nd_unitcube"]}
