# Design of the verification of homog2d

Subject: `/repo/homog2d.hpp` (single-header 2D geometry library). The code is read as text; nothing is compiled or run.
The properties are in `properties.jsonl`, the status of each one in `MANIFEST.json`, the model and the proofs in
`rocq/theories`, the record of the mutation experiments in `seeded/LOG.jsonl`.

In each line of `seeded/LOG.jsonl`, `rejected_by_coq` lists the proofs that Coq
itself rejected on the edited model. A rejected proof was admitted in the scratch
copy so that the build could go on. `failed` lists the manifest theorems that are
rejected or that depend on a rejected proof. This dependency was inferred from
names in the proof scripts, not from Coq, so `failed` can list too many theorems
where two names coincide. For most lines it was also recomputed on a later tree,
so it can name theorems written after that experiment.

## 1. How the code is modelled

* **Numbers.** Every model function is written once, generically over a class `Num T` (file `Num.v`) that lists the
  operations the C++ uses: `+ - * /`, `sqrt`, `fabs`, comparisons, `sin cos acos asin atan atan2`, integer literals.
  Two instances exist:
  * `RNum`: Coq's standard reals. All theorems outside `C_Float*.v` are about this instance. Rounding is therefore **not**
    modelled there: those theorems are about the exact-arithmetic meaning of the code (same expressions, same branches, same
    thresholds). Where the C++ could produce NaN/inf (division by zero, square root or arc cosine out of range) and the code does
    not guard, the model returns a distinct outcome `Undef`, so that Coq's totalised `x/0`, `sqrt(-1)` never make a theorem true.
  * `FNum`: IEEE binary64 (`PrimFloat`). Used to execute the model (`vm_compute`): unit-test values of the repository are
    replayed as `Example`s, and some counter-examples are established on this instance because it is the arithmetic the
    library really uses. The properties C187 and following in `C_Float*.v` are universally quantified theorems about this
    instance: what holds bit for bit in binary64, or agrees with the exact value. `hypot(x,y)` is `sqrt(x*x+y*y)` and the trigonometric functions are polynomial approximations there
    (not bit exact; no theorem depends on their last bits).
* **Outcomes.** `res A = Ok a | Throw | Undef`. `Throw` = the code throws `std::runtime_error`; `Undef` = C++ undefined
  behaviour, failed `assert`, or NaN/inf leaving the real-number model.
* **Thresholds** (`thr::nullDistance()` etc.) are fields of a record passed to every function that reads them; theorems quantify
  over all (positive) values, the default ones are used in the examples.
* **Points.** Two layers. The projective layer keeps the stored homogeneous triple. The Euclidean layer keeps `(x,y)` because
  every function at that layer only reads `getX()/getY()`; lemmas connect the two.
* **Template parameters** (`FPT`, mixed float types) collapse to a single number type. `HOMOG2D_NOCHECKS`, Eigen,
  TTMATH and tinyxml2 code paths are not modelled, except the SVG path string parser which needs no external library. Of the
  OpenCV and Boost Geometry code paths, the conversions of points, matrices and polygons are modelled (`M_Interop.v`).
* **State.** Objects with history-dependent behaviour (homography with its cached inverse, polyline with cached attributes,
  circle with the radius check flag, drawing parameters with static defaults) are modelled as records with an operation
  alphabet and a step function; histories are lists of operations and the theorems are proved by induction on them.

## 2. File organisation

`Num.v` number class and instances; `M_*.v` model (definitions only, each with file/line citation); `S_*.v` specifications
(written without reference to the model); `P_*.v` proofs; `C_*.v` property files: only `Theorem … exact …`, `Example`s for
non-vacuity and `Print Assumptions`.

Naming: `Cnn_…` theorem for property `Cnn`; suffix `_partial` when something of the stated property is missing (the comment says
what); suffix `_refuted` when the code does not have the property (`exists` a witness).

## 3. Trusted base

* The Coq 8.16.1 kernel (including its primitive 63-bit integers and binary64 floats for the `FNum` examples and the VM).
* Axioms listed by `Print Assumptions`: for theorems over `R`, the standard library's
  `ClassicalDedekindReals.sig_forall_dec`, `ClassicalDedekindReals.sig_not_dec`,
  `FunctionalExtensionality.functional_extensionality_dep`, and `Classical_Prop.classic` where a real-analysis lemma needs it.
  For theorems over `FNum`, the primitive float/int operations (`PrimFloat.*`, `PrimInt63.*`/`Uint63.*`) that the kernel implements,
  and for the universally quantified ones the standard library's specification of them (`FloatAxioms.*`: `Prim2SF_valid`,
  `add_spec`, `ltb_spec`, …; `Uint63` specifications for the conversion of integers).
  Theorems about lists, strings and state machines are closed under the global context.
  No axiom is added by this development.
* The hand translation of C++ to Gallina; each definition cites its source lines so it can be audited.

## 4. Not modelled

The SVG backend is modelled up to the text of the file (writing) and from the text of the file (import); the XML library
tinyxml2 is replaced by the reader of `S_Xml.v`, and the number formatting of the C++ stream by `M_Fmt.v`, written from the C
standard. Not modelled: opening and writing files, OpenCV rendering, run-time polymorphism by pointers (`rtp::`; the one by `std::variant` is `M_Variant.v`), OpenCV's own functions (`cv::getPerspectiveTransform()`), Eigen's solver (replaced by exact
elimination), big-number support, floating point rounding (except at the `FNum` instance: executions, counter-examples, and the theorems of `C_Float*.v`), memory allocation failure.

## 5. Properties: what is modelled and how it is proved

| id | property | model and proof |
|---|---|---|
| C01 | Homography inverse undoes the homography | 3x3 matrices over R, adjugate/determinant as coded; ring identities |
| C02 | Product of homographies is composition | matrix product + normalisation over R |
| C03 | Homographies preserve incidence | H^-T product over R; incidence stated as a.x+b.y+c.w=0 before the final renormalisation, and after it away from the sign-fix zone |
| C04 | A line built from two points passes through both | refuted for the general case (sign fix of nearly horizontal lines flips b and c but not a); proved when the direction is either exactly horizontal or not within nullDenom of it |
| C05 | Line transform always uses the current matrix | object state machine {matrix, isNormalized, hasChanged, cached matrix option}; refuted for the full alphabet, proved by induction for histories avoiding set/value/getRaw/transpose/init after a line product |
| C06 | Chained add* calls apply the transformations in call order | fold over a list of operations, induction; specification = function composition on the plane |
| C07 | Rotation/translation chains are isometries | corollary of the chain refinement + cos^2+sin^2=1 |
| C08 | Homography equality ignores scale | constructor+normalize model; the current-contents clause is refuted (flag not cleared by set()/assignment) |
| C09 | Double inverse and double transpose are the identity | matrix model over R |
| C10 | A failing inverse() leaves the object untouched | model returns (outcome, state after); refuted by witness, proved for singular input |
| C11 | Concurrent const use of a shared homography is safe | small-step interleaving model of the lazy cache fill; refuted by a schedule; proved once the cache has been primed |
| C12 | Normalised line representation is canonical | normalisation as coded over R |
| C13 | Line/point distance is the minimum distance | real arithmetic; specification = greatest lower bound over the set a.x+b.y+c=0 |
| C14 | Line angle is a well-behaved measure | acos over R with clamp |
| C15 | Lines that compare equal are the same line (up to tolerance) | refuted: two lines 10 units apart compare equal |
| C16 | Intersection of two lines is their common point | cross product over R; parallel test as coded; finiteness (third value non zero) derived from the angle test |
| C17 | Join and meet are dual | composition of the two models |
| C18 | Orthogonal and parallel lines through a point | as coded over R; statements on point sets; the sign-fix zone is excluded explicitly and refuted inside |
| C19 | Rotated line | composition of the homography model and line normalisation |
| C20 | Orthogonal segment is the projection | as coded over R |
| C21 | Points at a given distance along a line | as coded over R |
| C22 | Point ordering is a strict total order on coordinates | lexicographic comparison over R |
| C23 | Point equality is an equivalence relation | reflexivity/symmetry proved; transitivity refuted |
| C24 | Collinearity test does not depend on argument order | as coded over R; characterised by \|cross\| < thr * longest side |
| C25 | Distance from a point to a segment is the minimum distance | clamped projection over R; specification by convex combinations |
| C26 | A segment always stores its points in order | state machine; induction over operation list |
| C27 | Converting an oriented segment to a plain segment keeps equality meaningful | refuted with a witness; proved when p<q |
| C28 | Splitting a segment | as coded over R |
| C29 | Point at distance on an oriented segment | as coded over R |
| C30 | Side of a point is orientation-antisymmetric | as coded over R |
| C31 | Reversing operator does not modify its operand | refuted: unary minus swaps the stored points of the operand |
| C32 | Segment/segment intersection is sound and complete | as coded over R |
| C33 | Extended segment | as coded over R |
| C34 | Parallel segments | as coded over R |
| C35 | Perpendicular bisector | as coded over R |
| C36 | Rectangle does not depend on which corners are given | as coded over R |
| C37 | Rectangle intersection area is the area of the common region | as coded over R; specification = set of points |
| C38 | Rectangle union polygon | the coordinates are embedded in a grid, every comparison of the code is proved equal to a comparison of indexes, the 1296 index patterns are enumerated in the kernel, area and region are lifted back to all real coordinates |
| C39 | Intersection over union | as coded over R |
| C40 | Rectangle rotation and translation laws | as coded over R |
| C41 | Bounding and inscribed circles of a rectangle | as coded over R |
| C42 | Circle from two or three points | as coded over R |
| C43 | Line/circle intersection is sound and complete | as coded over R |
| C44 | Circle/circle intersection is sound and complete | as coded over R |
| C45 | Segment/circle intersection reports every crossing | refuted by witness; soundness proved |
| C46 | Circle inclusion is consistent | as coded over R |
| C47 | A circle object never has a null or negative radius | state machine; refuted for the full alphabet, proved for checked operations |
| C48 | Minimum enclosing circle | refuted by witness for 3 points; proved for every other size by induction over the recursion |
| C49 | Segments of a polyline | lists over R, induction |
| C50 | Cached polyline attributes are never stale | state machine with cached attributes; refuted for centroid, proved for length and area |
| C51 | Polygon area is a geometric invariant | shoelace fold over lists, induction |
| C52 | Polygon centroid moves with the polygon | fold over lists, induction |
| C53 | Polyline equality identifies equal shapes | normalisation as coded on lists; proved when the smallest vertex is unique |
| C54 | Comparing polylines does not change them | refuted by witness |
| C55 | Convexity does not depend on orientation | refuted by witness; proved without collinear triples |
| C56 | Bounding box of a polyline | min/max folds, induction |
| C57 | Point in polygon | refuted: an interior point on the prolongation of an edge is reported outside, and the function throws when vertices are close to its five reference segments (witness in doubles); what holds is C105 and C106 |
| C58 | Convex hull | refuted with collinear points; vertex-subset part proved for all inputs |
| C59 | Closest points of two polylines | nested loops over lists, induction |
| C60 | Nearest and farthest point | loops over lists, induction |
| C61 | Bounding box of two objects is symmetric | refuted by witness; proved for non-empty |
| C62 | Ellipse parameters survive the conic representation | conic coefficients over R; proved for centre and half-axes; the angle for an axis parallel to y is refuted (90 instead of PI/2) |
| C63 | Homography image of an ellipse | matrix identity over R |
| C64 | Drawing parameter defaults | state machine; induction over operations |
| C65 | SVG path parsing | instance of the refinement of C108; value of decimal texts by induction over the digits |
| C66 | Removing consecutive duplicates | refuted by witness; proved for exact duplicates |
| C67 | Segment/line intersection is sound and complete | as coded over R |
| C68 | Oriented angle between two oriented segments | atan2 over R; rotation identity |
| C69 | Orthogonal points of a segment | as coded over R |
| C70 | Segment/circle intersection is exact away from the ends | as coded over R, through the roots of the quadratic along the segment |
| C71 | The random minimum enclosing circle is the minimum enclosing circle | induction over the recursion with the invariant 'best disc with the given boundary points' |
| C72 | Radius along checked histories | invariant by induction over the list of calls |
| C73 | Union of touching rectangles | refuted: rectangles sharing an edge make the table walk leave the 4x4 table (undefined behaviour), rectangles sharing a corner give a self-crossing polygon of area 0; the case of meeting interiors is C38 |
| C74 | Rectangle containment is strict set inclusion | as coded over R; specification = set of points |
| C75 | Extended rectangle and diagonals | as coded over R |
| C76 | Polyline equality on polygons without spikes | normalisation as coded on lists: the smallest vertex and the sign of the turn there determine the normal form |
| C77 | Convexity is decided by the turns | sign loop over the indices related to consecutive triples of the doubled list |
| C78 | isSimple: meaning and invariance | double loop with early exit related to pairs of non-adjacent sides of the cyclic list |
| C79 | Extreme points | min_element with each comparison, reduced to a strict weak order |
| C80 | Regular convex polygon | trigonometric identities over R; the inner radius through the intersection of the first side with a line through the origin, as coded |
| C81 | Parallelogram from three points | composition of the line constructions |
| C82 | Nearest and farthest point, points equal to the query left out | fold with a first-minimum invariant on signed squared distances |
| C83 | Common bounding box of two objects | point pair of each object covers the same rectangles as the object; box independent of the order of the points |
| C84 | Bounding box of a container | same lemmas as C83, for the flattened list of points |
| C85 | Lines do not contribute to the bounding box of variants | refuted: the pair of the previous element is pushed again |
| C86 | Removing duplicates keeps one point of each run | induction over the list |
| C87 | Ellipse: centre, half-axes, area and angle are recovered | conic coefficients over R; discriminant, trace and sqrt identities; atan(tan t) |
| C88 | Ellipse: bounding box is the smallest one | Cauchy-Schwarz for the inclusion, four touching points for minimality |
| C89 | Ellipse: point inside test | the parameters computed from the matrix give the same form |
| C90 | Ellipse: translations and moves | induction over the list of operations |
| C91 | Ellipse from a circle | conic coefficients over R |
| C92 | Comparison of ellipses does not change them | refuted: throws for an ellipse through the origin; exchanges the half-axes of an ellipse around the origin; the normalised flag survives a translation |
| C93 | Comparison of ellipses: what it keeps and what true means | scaled parameters lemma; triangle inequality over the nine coefficients |
| C94 | Ellipse: bounds of the perimeter | Ramanujan's formula bounded over R |
| C95 | Ellipse with a vertical major axis | refuted: the angle computed is 90 radians |
| C96 | Points: normalisation and moves keep the point | homogeneous triples over R; induction over the list of operations |
| C97 | Side of a line | linear form over R, convexity and intermediate point |
| C98 | Drawing parameters: defaults, isolation, ranges, setters | state machine (one default, a list of objects); induction over the operations |
| C99 | Point style cycle and attribute string | string search by induction; cycle by cases |
| C100 | Convex hull, points not aligned with the pivot | Graham scan invariant by induction on the fuel; Grassmann-Pluecker relations |
| C101 | Convex hull: order of the input, idempotence | the angular order is a strict total order, so the sorted sequence is unique |
| C102 | Axes of an ellipse | the axis lines are computed in closed form, with the angle of the parameters shown to give the same quadratic form |
| C103 | Oriented bounding box of an ellipse | the four corners are computed in closed form in the frame of the axes |
| C104 | Even-odd rule | the crossings of one side are written with four orientation signs; a telescoping sum over the closed chain of vertices relates any segment to the horizontal half-line |
| C105 | Point in a polygon | exactness of the intersection test of one side under the hypotheses, invariant of the loop (only the first segment of each turn is used), then C104 |
| C106 | Point in a convex polygon | a level crosses at most one side upwards and one downwards; convex combinations; extreme vertex argument |
| C107 | Segment, rectangle, polyline inside a polygon | C106 at the vertices and convexity; completeness of the intersection of segments and C104 |
| C108 | SVG paths mean what the SVG recommendation says | simulation between the parser (which stores the values one command late) and the drawing state of the recommendation, by induction over the commands |
| C109 | SVG paths: the whole language | refuted: command after Z, common flag, final separators, line breaks, signs and exponents; computed witnesses |
| C110 | SVG path strings are safe to parse | invariant of the loop over the elements; finite check over the 256 characters for the command table |
| C111 | SVG points attribute | induction over the list; splitting lemmas |
| C112 | SVG points attribute: the whole language | refuted: empty attribute (undefined behaviour), two spaces, other separators |
| C113 | SVG ellipses | parsing lemmas, the chain of transformations computed as the rotation matrix, image of a conic (C63) |
| C114 | SVG ellipses: any pivot, any half-axes | refuted: the pivot is read but not used; a tall ellipse is stored as a wide one |
| C115 | Homography image of a segment | projective reparametrisation of the segment in both directions |
| C116 | Homography image of a segment: any segment | refuted: a segment that crosses the line sent to infinity gives the complementary part without error; the image of an oriented segment has type Segment but is not ordered |
| C117 | Homography image of a polyline | induction over the list of points; C01, C02, C115 |
| C118 | Homography image of a polygon: turns, convexity, area | determinant identity for the turn of three images; C51, C52, C77 |
| C119 | Homography image of a closed polyline is a valid closed polyline | refuted: first and last point are not compared (scaling by 1/4 of a triangle with a short closing side) |
| C120 | Offset polygon: vertices | loop turned into a map over the cyclic pairs of sides; the parallel segments of both sides, then the meeting point of their lines |
| C121 | Offset polygon: outward offset of a convex polygon | each side of the result is the original side times a factor at least 1; the sign of the normal order |
| C122 | Offset polygon: documented behaviour on any polygon | refuted on the rectangle 4 x 3: dist=-2 throws, dist=-10 gives a polygon all of whose vertices are outside |
| C123 | Bisector lines of a polyline | half-angle identities; induction over the corners |
| C124 | Distance of parallel lines | the stored normals are equal; point to line distance |
| C125 | Distance of parallel lines: always a number | refuted: two nearly vertical lines leaning to opposite sides give the square root of a negative number |
| C126 | Circle: area, length, translation | trigonometric bounds x cos x <= sin x <= x; sums over the sides of the polygon |
| C127 | Rectangle: area, length, corners | direct computation; midpoints |
| C128 | Polyline: moveTo | induction over the points; sums invariant by translation |
| C129 | Points inside: selection of points | filter against an inductive specification |
| C130 | Line against rectangle | per side equivalence; loop invariant over the sides; a line that contains no side meets the border at most twice |
| C131 | Line against rectangle: crossing the interior | refuted: rectangle 10000 x 1 and a line of slope 0.0005, which counts as parallel to both long sides: no point returned |
| C132 | Circle against rectangle | per side equivalence (C70); insertion in a sorted set by a total order |
| C133 | minimize() removes the straight vertices and nothing else | the running index of the removal loop is related to a filter over consecutive triples; induction over runs of aligned vertices |
| C134 | minimize() keeps the shape | refuted: 4001 points of a parabola, each turn below nullAngleValue: only two points are left, a removed vertex is at 700 or more |
| C135 | Common tangents of two circles | rotated line and nearest point identified with the translated tangent; distance of the centre to both parallels; quadratic equation for the normals |
| C136 | Common tangents: any two different circles | refuted: circles of radius 5 and 1, centres at distance 1: arc sine of 4; also proved: no external tangent exists in that case |
| C137 | Circle inside a polygon | intermediate value theorem along the sides, propagated around the cycle of vertices; even-odd rule constant along segments which meet no side (C104) |
| C138 | Homographies preserve incidence away from the sign-fix zone | H^-T product over R; incidence is kept by the product and by the final renormalisation |
| C139 | A line built from two points is the set of points aligned with them | cross product over R, sign normalisation by cases |
| C140 | Line transform uses the current matrix when no silent modification is pending | invariant of the object state machine, by induction over the history |
| C141 | Constructed homographies: equality ignores scale | both normalise to the same matrix |
| C142 | inverse() of a singular homography leaves it untouched | the model returns (outcome, state after) |
| C143 | Concurrent line products are safe once the cache is filled | invariant of the small-step interleaving model |
| C144 | Orthogonal and parallel lines through a point, away from the sign-fix zone | as coded over R; statements on point sets |
| C145 | Rotated line away from the sign-fix zone | composition of the homography model and line normalisation |
| C146 | Point equality is a tolerance relation | equality is characterised by the Euclidean distance |
| C147 | Collinearity test away from the sign-fix zone | as coded over R; characterised by \|cross\| < thr * longest side |
| C148 | Converting an oriented segment with increasing ends to a plain one | normal form of the stored pair |
| C149 | Segment/circle intersection: reported points are common points | filtering of the line/circle points by the angle test, bound on the distance |
| C150 | Minimum enclosing circle, any number of points but 3 | induction over the recursion; uniqueness of the smallest circle with given points on its boundary |
| C151 | Cached polyline attributes are not stale away from the moved centroid | invariant of the state machine with cached attributes, by induction |
| C152 | Comparing polylines keeps the shapes | normalisation is a rotation and a reversal |
| C153 | Homography computed from four pairs of points | soundness and completeness of elimination on a regular system; two matrices acting alike on four points in general position are proportional |
| C154 | Every homography is recovered from four pairs of points | refuted by a witness; the kernel of the system holds the matrix itself. C153 is the positive part |
| C155 | Polyline inside a polygon | no side is met, so that the even-odd parity is constant along the sides (C104); a hit is a common point |
| C156 | Polyline inside a circle or a rectangle | convexity of open discs and rectangles |
| C157 | Numbers written in the SVG text read back to six digits | bound on the nearest six-digit number; the parser of numbers applied to digits, dot and exponent; induction over the digits |
| C158 | Coordinates survive writing and reading | refuted by a witness; C157 is the positive part |
| C159 | The SVG file written is well-formed XML and holds what was drawn | a reader of XML as an automaton over characters; each text is shown to be a fragment that leaves the automaton in the same context with the nodes added; fragments compose |
| C160 | What is drawn is read back by the SVG import | composition of the tree of C159 with the visitor; numbers by C157; ellipse by the rotated quadratic form of the import proof |
| C161 | An open polyline is read back with all its points | refuted by a witness computed with floats; C160 is the positive part |
| C162 | A polyline written can be imported | refuted by a witness computed with floats; C160 is the positive part |
| C163 | Any text and any attribute give a well-formed file | refuted by witnesses; C159 is the positive part |
| C164 | Shapes are not filled unless asked for | refuted by a witness; the fill theorem of C159 is the positive part |
| C165 | The import reads every ellipse | refuted by a witness computed with floats |
| C166 | Marks drawn for points have the shape and place of their style | each segment is described by its equation; union of the segments compared with the norm of the offset (max, sum) |
| C167 | Arrow of an oriented segment | unit vectors orthogonal to a given one are its two rotations; distance of the two candidates from the first point |
| C168 | Aligned sides in an offset polygon | parallel lines for flat corners; loop as a list of corners |
| C169 | Polyline against a line, a segment, a circle | concatenation of the exact results of each side; sorting keeps the points |
| C170 | A line crosses a closed polyline an even number of times | the sign of the line's equation changes an even number of times around the polygon |
| C171 | Intersection of two polylines | permutation of the pairs of sides, symmetry of the intersection of two segments, insertion sort as a normal form |
| C172 | size() is the number of common points | refuted by a witness; C169 gives what size() counts |
| C173 | Segments and polylines against a rectangle | loop invariant; a line has at most two points on a convex border, crossings close to each other share a corner; exit point of a ray as a minimum of four parameters |
| C174 | Intersection of two rectangles | C173 for each side, sorted sets are unique, count by the orders of the ends on each axis |
| C175 | Colours in the SVG file | all elements of the document read back, by cases on the drawing; a base-16 reader written separately |
| C176 | Indexes of the points in the SVG file; image size of a file | texts collected from the document read back; truncated division |
| C177 | Image of an ellipse by a homography | normal form of a positive definite conic by an explicit diagonalisation; the image of the form is positive on the line at infinity because the ellipse avoids the line sent there; determinant of a congruence |
| C178 | A product with a homography always gives an ellipse | refuted by the circle of radius 3 and (x,y) -> (x,y)/(1+3x/5); C177 is the positive part |
| C179 | Affine images of ellipses | determinants of congruences; for similarities the trace is also an invariant, so both eigenvalues are scaled |
| C180 | Transforming a collection of objects of several types | induction over the collection with the coherence of the cached matrix as invariant; C51, C115, C117 and C179 for the objects |
| C181 | The image of an oriented segment is an oriented segment | refuted by the identity; C180 says which types are kept |
| C182 | Ellipses in the build with HOMOG2D_OPTIMIZE_SPEED | invariant over the list of calls: cache current, cache = abstract state, matrix = a multiple of the matrix of that state |
| C183 | HOMOG2D_OPTIMIZE_SPEED changes only the speed | refuted by four witnesses; C182 is the positive part |
| C184 | The text written by the stream operators tells the object | a separate reader of the texts, inverted by cases; the numbers with the reading lemma of the SVG output (C133) |
| C185 | Different objects have different texts | refuted by three witnesses; C184 is the positive part |
| C186 | Drawing a line draws its visible part | C130 for the intersection points; a chord of a convex set is between its points on the border; an inner point gives two of them; distance to the corner for the segment constructor |
| C187 | Equality, distances, angles and parallelism do not depend on the order of operands, bit for bit | IEEE specification (SpecFloat): x-y and y-x are opposite or both zero or NaN, product and sum commute |
| C188 | The order of points is a strict weak order in binary64, a segment does not depend on the order of its points | comparison of doubles is comparison of the integers value*2^1074 |
| C189 | Order of points with any coordinates | refuted: (0,0),(NaN,0),(1,0) |
| C190 | Flat rectangles in binary64 | comparisons through the integer value; subtraction of a smaller value is rounded to a value that is not negative |
| C191 | Translation, scaling and identity homographies do not add rounding errors | 0*x is a zero for finite x, adding a zero and multiplying by 1 are exact |
| C192 | Construction errors of lines are below the thresholds in binary64 | refuted by execution in the kernel: (3700,7100),(3701.3,7102.9); the computed distance is 8e-10 |
| C193 | Convex hull of integer points is exact in binary64 | products and differences stay below 2^53, so every orientation is exact; the run in doubles and in reals select the same indexes; C100 for the real run |
| C194 | Areas and convexity of integer polygons are exact in binary64 | induction on the loop with the bound of the partial sums; halves are exact |
| C195 | Membership of rectangles, bounding boxes and extreme points are exact in binary64 | comparison of doubles is comparison of their real values; C79 for the real run |
| C196 | Translations and dimensions are correctly rounded in binary64 | correct rounding derived from the definition of binary_normalize in SpecFloat: a rounded value is nearest, half an ulp away at most, and sums of doubles are multiples of the smallest subnormal |
| C197 | Translation keeps containment in rectangles and bounding boxes in binary64 | rounding is monotone |
| C198 | Translation in binary64 keeps strict containment, the order of the ends of a segment, and can be undone | refuted: each by a witness, executed in the kernel; SegVec::translate() does not put the ends in order again |
| C199 | Distances between points have a relative error of 6*2^-53, equality of points is decided rightly outside that band | standard error analysis on top of correct rounding of -, *, + and sqrt |
| C200 | Convex hull and convexity of general doubles are exact when no three points are nearly aligned | the computed determinant has the sign of the exact one; both runs select the same indexes; C100 for the real run |
| C201 | Error bound of the signed area in binary64 | induction on the loop; the n roundings of the partial sums grow as (1+2^-53)^n |
| C202 | Lines built from two points in binary64 | relative error of each operation (subtraction, product, hypot, division, final norm) composed over the whole construction, both sign branches of the normalisation included |
| C203 | Points along a segment in binary64 | error of each candidate coordinate (84 M 2^-53), absolute error of computed distances, and a triangle-inequality argument: if the wrong candidate wins then d itself is below the bound |
| C204 | Homographies from and to cv::Mat | the element loop with its i/3, i%3 indexing is modelled and unrolled; the line product only depends on the matrix of a fresh object |
| C205 | Assigning a cv::Mat to a homography in use | refuted: H*line, H = translation of 5, H*line gives the image by the former matrix; identity assigned from 2*I compares different from the identity |
| C206 | Assigning a cv::Mat: the safe uses | invariant of histories (cache not allocated) and scale invariance of homogeneous images |
| C207 | Coordinates of getCvPtd() and getCvPtf() | refuted: (1/2,7/2) gives (0,4), as the member functions return an integer point |
| C208 | Conversions of points and sizes for OpenCV | division with remainder on the numerator and denominator; round-half-even on integers |
| C209 | Polylines from boost polygons | lists: last, removelast and the checks of set() |
| C210 | Checks of the points of a boost polygon | refuted: the ring (0,0),(5,0),(5,0),(5,5),(0,0) gives an object whose getSegs() throws; a ring of one point gives an empty polyline |
| C211 | Square built from four points | every line is described in the frame of the bottom line; the width and the height of the result are the same component of one vector, whichever of the two turned points is taken |
| C212 | Square through all four points | refuted: for (0,0), (2,2), (4,1), (1,4) it returns the square (0,0)-(4,4), and (2,2) is on none of its sides |
| C213 | A square for any four points | refuted: (0,4), (1,0), (4,1), (3,3) throws |
| C214 | Perimeter of a polyline in binary64 | error of each side (distance of two doubles), then induction over the running sum with the (1+u)^k bound |
| C215 | Perimeter and area of a rectangle in binary64 | errors of the two differences, of the exact doubling and of the last operation combined |
| C216 | Inside a circle, in binary64 | distance error bound; the far point of the disk is built explicitly |
| C217 | Line through the origin and a point | the two cross products are opposite and the normalisation does not depend on the sign |
| C218 | Same checks in the two constructors | refuted: the point (1e-12,0) |
| C219 | Lines and points from vectors | case analysis on the length of the vector |
| C220 | Objects after a failed set() | refuted: after set(0,0,1) the line has a null direction and distTo() divides by 0; after set(0,0,0) the point is (0,0,0) |
| C221 | Histories of lines and points | invariant of the last step of a history; normalisation lemma |
| C222 | Conversion of an empty intersection | refuted: get() throws if there is no intersection |
| C223 | Conversion of intersection results | the sorted copy is a permutation of the points |
| C224 | Two main sides of a rectangle | lengths of axis-aligned segments |
| C225 | Centroid of a polygon with integer coordinates, in binary64 | both sums and six times the area are exact integers; only the final division rounds |
| C226 | Middle points in binary64 | halving a double that is not tiny is exact, so the nearest double to the sum gives the nearest one to the mean |
| C227 | Width, height and area of a rectangle without rounding error | Sterbenz: the difference has at most 53 bits, and a value with 53 bits is not changed by the rounding |
| C228 | Homography applied to a container of lines | the cache stays coherent along the loop; induction over the container |
| C229 | applyTo() is all or nothing | refuted: a projective homography that sends the second of two lines to infinity |
| C230 | Polylines from segments and from open polylines | sum over the closed sides is the sum over the open ones plus one |
| C231 | Conversion to a narrower numerical type | refuted for every rounding to binary32: points 1/8 apart near 2^23 become equal, the check is done before the conversion, and then getSegs(), length() and getLine() throw |
| C232 | What conversions keep | triangle inequality |
| C233 | Homographies from vectors of vectors | cases on sizes; normalisation lemma |
| C234 | Distances and equality of integer points in binary64 | sums of squares are exact; correctly rounded square root; monotonicity of rounding |
| C235 | Inside tests of circles in binary64 | a root of an integer that is not a perfect square is at least 2^-27 away from an integer, more than its rounding error |
| C236 | Intersections of two circles are always defined | refuted: circles of radius 0.1 with centers (0,0) and (0.2,0) touch, and the rounded square of the distance to the radical line exceeds that of the radius: the result is a pair of NaN points |
| C237 | Number of intersections of two circles in binary64 | comparisons on exact integers; Heron's identity n^2 + ((t+u)^2-s)(s-(t-u)^2) = 4 t^2 s keeps the rounded quotient below the radius; the gap of integers keeps the two points apart |
| C238 | Nearest and farthest points in binary64 | squared distances are exact integers: the binary64 and the exact loops go through related states; exact result from C82 |
| C239 | Closest points of two sets in binary64 | square roots of different integers up to 2^50 are further apart than their rounding errors; exact result from C59 |
| C240 | Rectangles with integer corners in binary64 | integers below 2^53 are exact; labels from C235 |

## 6. Modelled code

Every definition below carries the citation (and its simplifications) in the comment in front of it.

| file | definition | lines of homog2d.hpp |
|---|---|---|
| M_Arrow.v | `arrowSegs` | 11807-11835 |
| M_Circle.v | `circle` | 3196-3197 |
| M_Circle.v | `ptTag` | 8163-8166 |
| M_Circle.v | `cDefault` | 3204-3205 |
| M_Circle.v | `cNew` | 3241-3250, 3358-3362 |
| M_Circle.v | `cSet2` | 5572-5582 |
| M_Circle.v | `cSet3` | 5605-5627 |
| M_Circle.v | `ptInCircle` | 4369-4382 |
| M_Circle.v | `isValidCircle` | 5634-5643 |
| M_Circle.v | `minCircleTrivial` | 5655-5673 |
| M_Circle.v | `setNth` | 5655-5673 |
| M_Circle.v | `swapNth` | 5655-5673 |
| M_Circle.v | `welzl` | 5686-5716 |
| M_Circle.v | `cSetPts` | 5737-5762 |
| M_Circle.v | `cEq` | 3524-3531 |
| M_Circle.v | `cInCircle` | 3441-3444 |
| M_Circle.v | `cInRect` | 3507-3518 |
| M_Circle.v | `cTranslate` | 3404-3409, 3335-3338, 3420-3432, 3294, 3351-3354 |
| M_Circle.v | `cMoveTo` | 3404-3409, 3335-3338, 3420-3432, 3294, 3351-3354 |
| M_Circle.v | `cSetRadius` | 3404-3409, 3335-3338, 3420-3432, 3294, 3351-3354 |
| M_Circle.v | `cArea` | 3307-3316 |
| M_Circle.v | `cLength` | 3307-3316 |
| M_Circle.v | `circleCircle` | 5805-5850 |
| M_Circle.v | `ptLabel` | 8171-8181 |
| M_Circle.v | `segCircle` | 8295-8351 |
| M_Circle.v | `cop` | 3358, 3294, 3351, 3335, 3420, 3404, 5572, 5605, 5737 |
| M_Circle.v | `cStep` | 3358, 3294, 3351, 3335, 3420, 3404, 5572, 5605, 5737 |
| M_Circle.v | `cRun` | 3358, 3294, 3351, 3335, 3420, 3404, 5572, 5605, 5737 |
| M_Conv.v | `plOfSeg` | 6112-6118 |
| M_Conv.v | `ptConvert` | 4025-4031 |
| M_Conv.v | `plConvert` | 6140-6154, 6465-6479 |
| M_Conv.v | `frConvert` | 2725-2729, 4936-4947 |
| M_Conv.v | `svConvertNum` | 2725-2729, 4936-4947 |
| M_Conv.v | `hOfRows` | 1764-1776, 1604-1610 |
| M_Conv.v | `applyToPts` | 9564-9582 |
| M_Conv.v | `applyToLines` | 9564-9582 |
| M_Ctor.v | `lineOfPt` | 3869-3872, 4036-4045 |
| M_Ctor.v | `lineOf2` | 3875-3881, 9118-9135 |
| M_Ctor.v | `lineOf4` | 3904-3914 |
| M_Ctor.v | `lineOfVec` | 3930-3965 |
| M_Ctor.v | `pointOfVec` | 3930-3965 |
| M_Ctor.v | `lineDefault` | 3968-3981 |
| M_Ctor.v | `pointDefault` | 3968-3981 |
| M_Ctor.v | `lineSetSt` | 3891-3901, 8777-8829 |
| M_Ctor.v | `pointSetSt` | 3891-3901, 8777-8829 |
| M_Ctor.v | `lop` | 3891-3901 |
| M_Ctor.v | `lStep` | 3891-3901 |
| M_Ctor.v | `lRun` | 3891-3901 |
| M_Ctor.v | `ptop` | 4214-4224 |
| M_Ctor.v | `ptStep` | 4214-4224 |
| M_Ctor.v | `ptRun` | 4214-4224 |
| M_Ctor.v | `lineDistU` | 9167-9179 |
| M_Ctor.v | `int2` | 2528-2563, 2552-2558 |
| M_Ctor.v | `int2Get` | 2528-2563, 2552-2558 |
| M_Ctor.v | `int2Size` | 2528-2563, 2552-2558 |
| M_Ctor.v | `int2Convert` | 2541-2548 |
| M_Ctor.v | `intMConvert` | 2566-2613 |
| M_Ctor.v | `intMSize` | 2566-2613 |
| M_Ctor.v | `intMBool` | 2566-2613 |
| M_Ctor.v | `frPairSegs` | 2985-2997 |
| M_Draw.v | `color` | 432-445 |
| M_Draw.v | `dpv` | 525-548, 484-492 |
| M_Draw.v | `dpFactory` | 527-538, 434-436 |
| M_Draw.v | `u8` | 527-538, 434-436 |
| M_Draw.v | `nextStyle` | 541-547 |
| M_Draw.v | `dset` | 585-652, 629 |
| M_Draw.v | `dSet` | 585-652, 629 |
| M_Draw.v | `dworld` | 566-570 |
| M_Draw.v | `wInit` | 566-570 |
| M_Draw.v | `dop` | 573-576, 577-580, 581-584 |
| M_Draw.v | `updNth` | 573-576, 577-580, 581-584 |
| M_Draw.v | `dApply` | 573-576, 577-580, 581-584 |
| M_Draw.v | `wStep` | 573-576, 577-580, 581-584 |
| M_Draw.v | `wRun` | 573-576, 577-580, 581-584 |
| M_Draw.v | `strPrefix` | 675-681 |
| M_Draw.v | `strFind` | 675-681 |
| M_Draw.v | `holdsFill` | 675-681 |
| M_Draw.v | `attrString` | 683-688 |
| M_EllOpt.v | `ello` | 2450-2453 |
| M_EllOpt.v | `oInit` | 2399-2437 |
| M_EllOpt.v | `oNew` | 2260-2270 |
| M_EllOpt.v | `oOfCircle` | 2273-2276 |
| M_EllOpt.v | `oOfMat` | 2391-2392, 2279-2282, 2451 |
| M_EllOpt.v | `oParams` | 8484-8499 |
| M_EllOpt.v | `oCenter` | 8583-8609, 2334-2338 |
| M_EllOpt.v | `oMajMin` | 8583-8609, 2334-2338 |
| M_EllOpt.v | `oAngle` | 8583-8609, 2334-2338 |
| M_EllOpt.v | `oArea` | 8583-8609, 2334-2338 |
| M_EllOpt.v | `oBB` | 8654-8668 |
| M_EllOpt.v | `oInside` | 8742-8763 |
| M_EllOpt.v | `oTranslate` | 2286-2293, 2302-2309 |
| M_EllOpt.v | `oMoveTo` | 2286-2293, 2302-2309 |
| M_EllOpt.v | `oNormalize` | 2357-2375 |
| M_EllOpt.v | `oEq` | 2357-2375 |
| M_EllOpt.v | `oImage` | 9740-9754 |
| M_EllOpt.v | `setCoeff` | 1499-1506, 2219 |
| M_EllOpt.v | `oSet` | 1499-1506, 2219 |
| M_EllOpt.v | `ellSet` | 1499-1506, 2219 |
| M_EllOpt.v | `oop` | 1499-1506, 2219 |
| M_EllOpt.v | `oStep` | 1499-1506, 2219 |
| M_EllOpt.v | `dStep` | 1499-1506, 2219 |
| M_Ellipse.v | `ell` | 1475-1476 |
| M_Ellipse.v | `epar` | 2133-2163 |
| M_Ellipse.v | `ellInit` | 2399-2443 |
| M_Ellipse.v | `ellNew` | 2260-2270, 2254-2257, 2250-2251 |
| M_Ellipse.v | `ellDefault` | 2260-2270, 2254-2257, 2250-2251 |
| M_Ellipse.v | `ellOfCircle` | 2273-2276 |
| M_Ellipse.v | `ellParams` | 8508-8557, 8484-8499 |
| M_Ellipse.v | `ellIsCircle` | 8567-8578 |
| M_Ellipse.v | `ellCenter` | 8583-8589 |
| M_Ellipse.v | `ellMajMin` | 8592-8598 |
| M_Ellipse.v | `ellAngle` | 8603-8609 |
| M_Ellipse.v | `ellArea` | 2334-2338 |
| M_Ellipse.v | `ellLength` | 8616-8626 |
| M_Ellipse.v | `ellAxisLines` | 8630-8647 |
| M_Ellipse.v | `ellBB` | 8654-8668 |
| M_Ellipse.v | `ellOBB` | 8684-8736 |
| M_Ellipse.v | `ellInside` | 8742-8763, 9436-9445 |
| M_Ellipse.v | `ellTranslate` | 2286-2293, 2302-2309 |
| M_Ellipse.v | `ellMoveTo` | 2286-2293, 2302-2309 |
| M_Ellipse.v | `ellNormalize` | 2357-2375 |
| M_Ellipse.v | `ellEq` | 2357-2375 |
| M_Ellipse.v | `ellEqSelf` | 2357-2375 |
| M_Ellipse.v | `hEll` | 9740-9754, 9758-9765 |
| M_Ellipse.v | `hCircle` | 9740-9754, 9758-9765 |
| M_FRect.v | `frect` | 2678 |
| M_FRect.v | `dirn` | 7879, 7894 |
| M_FRect.v | `frDefault` | 2684-2687 |
| M_FRect.v | `frSet` | 2765-2770, 2690-2700, 1344-1357 |
| M_FRect.v | `frCenter` | 2704-2712 |
| M_FRect.v | `frSet4` | 2716-2723, 2773-2776 |
| M_FRect.v | `frOf4` | 2735-2760 |
| M_FRect.v | `frHeight` | 2780-2783 |
| M_FRect.v | `frWidth` | 2780-2783 |
| M_FRect.v | `frArea` | 2780-2783 |
| M_FRect.v | `frLength` | 2780-2783 |
| M_FRect.v | `frGetCenter` | 2808-2814 |
| M_FRect.v | `fr4Pts` | 2945-2953 |
| M_FRect.v | `frSegs` | 2969-2978 |
| M_FRect.v | `frDiagonals` | 2899-2910 |
| M_FRect.v | `frBoundingCircle` | 2818-2822 |
| M_FRect.v | `frInscribedCircle` | 2826-2836 |
| M_FRect.v | `frTranslate` | 2845-2851 |
| M_FRect.v | `frExtended` | 2887-2896 |
| M_FRect.v | `plOfRect` | 6105-6110 |
| M_FRect.v | `plBB` | 6230-6243 |
| M_FRect.v | `frRotate` | 7651-7656, 7627-7632 |
| M_FRect.v | `frRotateAt` | 7651-7656, 7627-7632 |
| M_FRect.v | `ptInRect` | 4682-4688, 9298-9309 |
| M_FRect.v | `frInRect` | 3007-3014, 3103-3110 |
| M_FRect.v | `pointsInside` | 3007-3014, 3103-3110 |
| M_FRect.v | `frInCircle` | 3007-3014, 3103-3110 |
| M_FRect.v | `frEq` | 3082-3089 |
| M_FRect.v | `frInterSegLoop` | 3153-3173 |
| M_FRect.v | `frInterSeg` | 3153-3173 |
| M_FRect.v | `frInterLineLoop` | 9526-9554 |
| M_FRect.v | `frInterLine` | 9526-9554 |
| M_FRect.v | `setInsert` | 9526-9554 |
| M_FRect.v | `frInterLoop` | 3118-3138, 3071-3076, 3127 |
| M_FRect.v | `frInterRect` | 3118-3138, 3071-3076, 3127 |
| M_FRect.v | `frInterCircLoop` | 3118-3138, 3071-3076, 3127 |
| M_FRect.v | `frInterCircle` | 3118-3138, 3071-3076, 3127 |
| M_FRect.v | `intersectArea` | 7717-7819 |
| M_FRect.v | `idxLt` | 7831-7852 |
| M_FRect.v | `idxInsert` | 7831-7852 |
| M_FRect.v | `idxSort` | 7831-7852 |
| M_FRect.v | `isCorner` | 8142-8145, 7867-7872 |
| M_FRect.v | `turnDir` | 7898-7912 |
| M_FRect.v | `moveCell` | 7916-7925 |
| M_FRect.v | `parseTable` | 7933-7968 |
| M_FRect.v | `coordStep` | 7994-8018 |
| M_FRect.v | `convertToCoord` | 7994-8018 |
| M_FRect.v | `unionArea` | 8089-8156 |
| M_FRect.v | `iou` | 9860-9866 |
| M_Fmt.v | `nbDigGo` | 12044-12365 |
| M_Fmt.v | `nbDig` | 12044-12365 |
| M_Fmt.v | `shift10` | 12044-12365 |
| M_Fmt.v | `expo10` | 12044-12365 |
| M_Fmt.v | `nearest` | 12044-12365 |
| M_Fmt.v | `sig6` | 12044-12365 |
| M_Fmt.v | `digChar` | 12044-12365 |
| M_Fmt.v | `digsGo` | 12044-12365 |
| M_Fmt.v | `digs` | 12044-12365 |
| M_Fmt.v | `digText` | 12044-12365 |
| M_Fmt.v | `strip` | 12044-12365 |
| M_Fmt.v | `fracText` | 12044-12365 |
| M_Fmt.v | `natText` | 12044-12365 |
| M_Fmt.v | `sigText` | 12044-12365 |
| M_Fmt.v | `fmtPos` | 12044-12365 |
| M_Fmt.v | `fmt` | 12044-12365 |
| M_Fmt.v | `fmtInt` | 12044-12365 |
| M_Four.v | `row` | helper |
| M_Four.v | `rowsOf` | 4709-4726 |
| M_Four.v | `system` | 4704-4727 |
| M_Four.v | `dot` | 4704-4727 |
| M_Four.v | `lead` | 4704-4727 |
| M_Four.v | `subMul` | 4704-4727 |
| M_Four.v | `elim` | 4704-4727 |
| M_Four.v | `pick` | 4704-4727 |
| M_Four.v | `solve` | 4731-4732 |
| M_Four.v | `setAll` | 4735-4738 |
| M_Four.v | `fourEigen` | 4697-4741 |
| M_Four.v | `fourPoints` | 4795-4825, 4770-4781 |
| M_Homogr.v | `mat` | 1475 |
| M_Homogr.v | `matMap` | 1475 |
| M_Homogr.v | `matZero` | 1589-1601 |
| M_Homogr.v | `matEye` | 1589-1601 |
| M_Homogr.v | `matGet` | 1507-1520, 137-141 |
| M_Homogr.v | `matSet` | 1499-1505 |
| M_Homogr.v | `det2` | 1625-1630 |
| M_Homogr.v | `determ` | 1526-1532 |
| M_Homogr.v | `matTranspose` | 1535-1544 |
| M_Homogr.v | `adjugate` | 1633-1651 |
| M_Homogr.v | `matInverse` | 1547-1558 |
| M_Homogr.v | `matNormalize` | 1562-1577, 1581-1587 |
| M_Homogr.v | `matMul` | 9588-9600, 1673-1679 |
| M_Homogr.v | `matMulH` | 9608-9621 |
| M_Homogr.v | `matMulL` | 9608-9621 |
| M_Homogr.v | `hobj` | 1475-1476, 2037, 2038 |
| M_Homogr.v | `hInit` | 1854-1857, 2027-2031 |
| M_Homogr.v | `hNew` | 1733-1736, 1476, 2037-2038 |
| M_Homogr.v | `hNormalize` | 1962-1966 |
| M_Homogr.v | `hOfMat` | 1780-1785, 1764-1776 |
| M_Homogr.v | `hSetTranslation` | 1874-1885, 1898-1909, 1938-1949 |
| M_Homogr.v | `hSetRotation` | 1874-1885, 1898-1909, 1938-1949 |
| M_Homogr.v | `hSetScale` | 1874-1885, 1898-1909, 1938-1949 |
| M_Homogr.v | `hCopy` | 1788-1794 |
| M_Homogr.v | `hAssign` | 1807-1813 |
| M_Homogr.v | `hMul` | 1971-1978 |
| M_Homogr.v | `hAddTranslation` | 1864-1871, 1888-1895, 1919-1928 |
| M_Homogr.v | `hAddRotation` | 1864-1871, 1888-1895, 1919-1928 |
| M_Homogr.v | `hAddScale` | 1864-1871, 1888-1895, 1919-1928 |
| M_Homogr.v | `hInverse` | 1816-1821, 1555-1556 |
| M_Homogr.v | `hTranspose` | 1535-1544 |
| M_Homogr.v | `hSet` | 1495-1520 |
| M_Homogr.v | `matClose` | 1985-2002 |
| M_Homogr.v | `hEq` | 1985-2002 |
| M_Homogr.v | `hApplyPt` | 9668-9673 |
| M_Homogr.v | `hApplyLine` | 9678-9698 |
| M_Homogr.v | `hop` | 9678-9698 |
| M_Homogr.v | `keep` | 9678-9698 |
| M_Homogr.v | `hStep` | 9678-9698 |
| M_Homogr.v | `hRun` | 9678-9698 |
| M_Homogr.v | `getRotatedLine` | 8919-8935 |
| M_Homogr.v | `tpc` | 9678-9698 |
| M_Homogr.v | `tStep` | 9678-9698 |
| M_Homogr.v | `upd` | 9678-9698 |
| M_Homogr.v | `sched1` | 9678-9698 |
| M_Homogr.v | `schedRun` | 9678-9698 |
| M_Hull.v | `hullLt` | 11477-11486 |
| M_Hull.v | `hullInsert` | 11473 |
| M_Hull.v | `hullSort` | 11473 |
| M_Hull.v | `hullOrder` | 11450-11456, 11460-11489 |
| M_Hull.v | `hullOrient` | 11502-11517, 221 |
| M_Hull.v | `hullLoop` | 11579-11603 |
| M_Hull.v | `hullPts` | 11560-11617 |
| M_Hull.v | `convexHull` | 11553-11620, 11538-11543, 11625-11630 |
| M_Inter.v | `sortInsert` | 2609-2613 |
| M_Inter.v | `interGet` | 2609-2613 |
| M_Inter.v | `plInter` | 6572-6582, 2598-2607 |
| M_Inter.v | `inter1` | 6572-6582, 2598-2607 |
| M_Inter.v | `plInterLine` | 8248, 4343-4346 |
| M_Inter.v | `plInterSeg` | 8209, 5329-5332 |
| M_Inter.v | `plInterRect` | 5322-5325, 3153-3173, 3064-3067 |
| M_Inter.v | `plInterCircle` | 8295-8351, 3499-3502 |
| M_Inter.v | `plInterPoly` | 5329-5332 |
| M_Interop.v | `cvType` | helper |
| M_Interop.v | `cvMat` | helper |
| M_Interop.v | `cvFill` | 11690-11701 |
| M_Interop.v | `hAssignCv` | 11670-11704 |
| M_Interop.v | `hOfCv` | 1798-1801, 1476-1484, 2037-2038 |
| M_Interop.v | `hCopyTo` | 11645-11668 |
| M_Interop.v | `frOfCv` | 4578-4592 |
| M_Interop.v | `plOfBoost` | 6171-6206 |
| M_Interop.v | `qRound` | 6171-6206 |
| M_Interop.v | `asInt` | 6171-6206 |
| M_Interop.v | `asInts` | 6171-6206 |
| M_Interop.v | `getPt2d` | 4187-4190, 4202-4206, 4646-4651 |
| M_Interop.v | `getPtsOf` | 4664-4673 |
| M_Interop.v | `getCvPti` | 4438, 4607-4612 |
| M_Interop.v | `getCvPtd` | 4439, 4593-4598 |
| M_Interop.v | `getCvPtf` | 4440, 4600-4605 |
| M_Interop.v | `ptOfCv` | 4443-4449 |
| M_LP.v | `pt` | 4133-4142 |
| M_LP.v | `hpt` | 4463 |
| M_LP.v | `line` | 4463 |
| M_LP.v | `hOfPt` | 9118-9125 |
| M_LP.v | `ptOfH` | 4133-4142 |
| M_LP.v | `pnorm` | 8813-8829 |
| M_LP.v | `hset2` | 4214-4224 |
| M_LP.v | `htranslate` | 4146-4158 |
| M_LP.v | `hIsInf` | 4257-4263 |
| M_LP.v | `lnorm` | 8777-8807 |
| M_LP.v | `lineSet3` | 3885-3901 |
| M_LP.v | `pointSet3` | 3885-3901 |
| M_LP.v | `lineV` | 4554-4568 |
| M_LP.v | `lineH` | 4554-4568 |
| M_LP.v | `crossPP` | 9057-9075 |
| M_LP.v | `crossLL` | 9057-9075 |
| M_LP.v | `distPP` | 9140-9152 |
| M_LP.v | `sqDist` | 3577-3582 |
| M_LP.v | `ptEq` | 9023-9026 |
| M_LP.v | `ptLt` | 9032-9043 |
| M_LP.v | `fixOrder` | 3558-3562 |
| M_LP.v | `nsign` | 3567-3569 |
| M_LP.v | `lineOfH` | 3668-3677, 3839-3847 |
| M_LP.v | `lineOf` | 3668-3677, 3839-3847 |
| M_LP.v | `lineDist` | 9167-9179 |
| M_LP.v | `lineAngle` | 9267-9291 |
| M_LP.v | `isParallel` | 9232-9239 |
| M_LP.v | `meetH` | 9632-9642 |
| M_LP.v | `meet` | 9632-9642 |
| M_LP.v | `lineInterLine` | 4289-4296 |
| M_LP.v | `lineEq` | 9009-9018 |
| M_LP.v | `getCoord` | 8835-8850 |
| M_LP.v | `getPoint` | 4075-4084 |
| M_LP.v | `getPoints_B2` | 3717-3734 |
| M_LP.v | `getPoints` | 8858-8874 |
| M_LP.v | `getOrthogLine` | 3740-3750, 8898-8913 |
| M_LP.v | `getParallelLine` | 8972-8980 |
| M_LP.v | `getParallelLines` | 8988-8997 |
| M_LP.v | `getOrthogSegment` | 8945-8965, 4904 |
| M_LP.v | `side` | 9833-9844 |
| M_LP.v | `getLargestDistancePoints` | 3616-3660 |
| M_LP.v | `areCollinear` | 3687-3698 |
| M_LineDraw.v | `lineDrawn` | 11707-11736, 11714-11715 |
| M_Map.v | `hPt` | 9665-9673 |
| M_Map.v | `hSeg` | 9701-9709 |
| M_Map.v | `hPoly` | 9712-9721 |
| M_Map.v | `hRect` | 9724-9732 |
| M_Map.v | `hPts` | 9805-9817 |
| M_Misc.v | `prim` | 414-426 |
| M_Misc.v | `cpState` | 10536-10587 |
| M_Misc.v | `cpStep` | 10612-10615 |
| M_Misc.v | `closestPoints` | 10593-10619 |
| M_Misc.v | `cpPoints` | 10563-10570 |
| M_Misc.v | `fpStep` | 11118-11137 |
| M_Misc.v | `findPoint` | 11086-11140, 11150-11155, 11158-11163 |
| M_Misc.v | `nfStep` | 11169-11208 |
| M_Misc.v | `findNearFar` | 11169-11208 |
| M_Misc.v | `purgeLoop` | 12740-12755 |
| M_Misc.v | `purgeDupes` | 12740-12755 |
| M_Misc.v | `ptsInCircle` | 11216-11236 |
| M_Misc.v | `ptsInRect` | 11216-11236 |
| M_Misc.v | `bbRect` | 10331, 5974, 5994, 10301 |
| M_Misc.v | `cBB` | 3319-3327 |
| M_Misc.v | `primSize` | 4061-4067, 5045, 3301, 2785, 6215 |
| M_Misc.v | `primIsPoly` | 4061-4067, 5045, 3301, 2785, 6215 |
| M_Misc.v | `pointPair` | 10047-10125 |
| M_Misc.v | `bbPairs` | 10421-10427, 10400-10413 |
| M_Misc.v | `bbTwo` | 10429-10497, 10451 |
| M_Misc.v | `bbContPts` | 10324-10332, 5960-5975, 5981-5995, 10335-10345 |
| M_Misc.v | `bbContSegs` | 10324-10332, 5960-5975, 5981-5995, 10335-10345 |
| M_Misc.v | `bbContRects` | 10324-10332, 5960-5975, 5981-5995, 10335-10345 |
| M_Misc.v | `variantPts` | 10278-10302 |
| M_Misc.v | `bbContVariant` | 10278-10302 |
| M_Offset.v | `at_` | helper |
| M_Offset.v | `offsetVertex` | 6713-6751, 6039-6042 |
| M_Offset.v | `offsetLoop` | 6709-6758 |
| M_Offset.v | `plOffset` | 6709-6758 |
| M_Offset.v | `bisLoop` | 9984-10022 |
| M_Offset.v | `plBisectorLines` | 9984-10022 |
| M_Offset.v | `parallelDistance` | 10972-10995 |
| M_Offset.v | `casin` | 10796-10856 |
| M_Offset.v | `nearestPoint` | 10831-10839 |
| M_Offset.v | `tanSegs` | 10831-10839 |
| M_Pip.v | `countM` | 9395-9400 |
| M_Pip.v | `hasInter` | 2478-2481 |
| M_Pip.v | `pipNear` | 9387-9392, 9194-9198 |
| M_Pip.v | `pipFor` | 9382-9403 |
| M_Pip.v | `pipSplit` | 9409-9416 |
| M_Pip.v | `pipLoop` | 9378-9421, 228 |
| M_Pip.v | `ptInPoly` | 9360-9423, 4398-4402 |
| M_Pip.v | `ptInPolyB` | 9360-9423, 4398-4402 |
| M_Pip.v | `allM` | 3035-3037, 6627-6629 |
| M_Pip.v | `segInPoly` | 5180-5189, 5134-5141 |
| M_Pip.v | `plHitsSeg` | 6572-6582 |
| M_Pip.v | `frInPoly` | 3029-3039 |
| M_Pip.v | `plInPrim` | 6600-6609 |
| M_Pip.v | `plInPoly` | 6622-6633 |
| M_Pip.v | `cInPoly` | 5776-5789, 6572-6582 |
| M_Poly.v | `rot` | 913-920 |
| M_Poly.v | `poly` | 6092-6094, 5878-5892, 5858-5873 |
| M_Poly.v | `anyM` | 7403-7409 |
| M_Poly.v | `mapM` | 6008-6013 |
| M_Poly.v | `minElemFrom` | 6008-6013 |
| M_Poly.v | `minElem` | 6008-6013 |
| M_Poly.v | `rotateL` | 6008-6013 |
| M_Poly.v | `pt00` | 6008-6013 |
| M_Poly.v | `plFresh` | 6008-6013 |
| M_Poly.v | `plEmpty` | 6101, 6379-6384 |
| M_Poly.v | `plNbSegs` | 6249-6257 |
| M_Poly.v | `plPoint` | 6324-6333 |
| M_Poly.v | `plSegment` | 6338-6353 |
| M_Poly.v | `plSegs` | 6000-6017, 6312-6321 |
| M_Poly.v | `noConsecEq` | 6508-6527 |
| M_Poly.v | `plCheck` | 6508-6527 |
| M_Poly.v | `plSet` | 6465-6479, 6128-6131 |
| M_Poly.v | `plAddPoint` | 6279-6291 |
| M_Poly.v | `plAddAll` | 7346-7361 |
| M_Poly.v | `plWrite` | 6299-6304 |
| M_Poly.v | `plTranslate` | 6415-6421 |
| M_Poly.v | `plMoveTo` | 6444-6452 |
| M_Poly.v | `ptRotate` | 7289-7313 |
| M_Poly.v | `plRotate` | 7287-7314 |
| M_Poly.v | `plRotateAt` | 7269-7274 |
| M_Poly.v | `nextIdx` | 7328-7329, 7446-7448, 7504 |
| M_Poly.v | `prevIdx` | 7328-7329, 7446-7448, 7504 |
| M_Poly.v | `plIsMiddle` | 7327-7339 |
| M_Poly.v | `plKeepFrom` | 7344-7361 |
| M_Poly.v | `plKeep` | 7344-7361 |
| M_Poly.v | `plMinimize` | 6406-6411, 7365-7378, 7320-7363 |
| M_Poly.v | `plParallelogram` | 6769-6792 |
| M_Poly.v | `rcpPoint` | 6829-6847 |
| M_Poly.v | `lineFromOrigin` | 3869-3872, 4036-4045 |
| M_Poly.v | `plRCP` | 6802-6854 |
| M_Poly.v | `simpleCalc` | 7395-7413 |
| M_Poly.v | `plIsSimple` | 7385-7417 |
| M_Poly.v | `plCross` | 7434-7463 |
| M_Poly.v | `convexLoop` | 7434-7463 |
| M_Poly.v | `plIsConvex` | 7434-7463 |
| M_Poly.v | `lengthCalc` | 7469-7479 |
| M_Poly.v | `plLength` | 7469-7479 |
| M_Poly.v | `signedArea` | 7499-7511 |
| M_Poly.v | `plAreaOf` | 7485-7493 |
| M_Poly.v | `centroidCalc` | 7529-7549 |
| M_Poly.v | `plCentroid` | 7522-7553 |
| M_Poly.v | `normPts` | 7572-7610 |
| M_Poly.v | `plNormalize` | 7572-7610 |
| M_Poly.v | `plEq` | 6537-6555 |
| M_Poly.v | `shareCoord` | 1319-1329 |
| M_Poly.v | `minOf` | 5913-5930 |
| M_Poly.v | `maxOf` | 5913-5930 |
| M_Poly.v | `bbPoints` | 5907-5948 |
| M_Poly.v | `ltBm` | 6896-6900,
      6959-6963, 7006-7010, 7047-7051 |
| M_Poly.v | `ltTm` | 6896-6900,
      6959-6963, 7006-7010, 7047-7051 |
| M_Poly.v | `ltLm` | 6896-6900,
      6959-6963, 7006-7010, 7047-7051 |
| M_Poly.v | `ltRm` | 6896-6900,
      6959-6963, 7006-7010, 7047-7051 |
| M_Poly.v | `extremePoint` | 922, 7097-7109, 6919-7059, 7117 |
| M_Poly.v | `plop` | 6465, 6379, 6415, 6444, 7287, 7269, 6406, 6299, 6769, 6802, 7469, 7485, 7385, 7434, 7522, 6537 |
| M_Poly.v | `keepPl` | 6465, 6379, 6415, 6444, 7287, 7269, 6406, 6299, 6769, 6802, 7469, 7485, 7385, 7434, 7522, 6537 |
| M_Poly.v | `keepPl0` | 6465, 6379, 6415, 6444, 7287, 7269, 6406, 6299, 6769, 6802, 7469, 7485, 7385, 7434, 7522, 6537 |
| M_Poly.v | `plStep` | 6465, 6379, 6415, 6444, 7287, 7269, 6406, 6299, 6769, 6802, 7469, 7485, 7385, 7434, 7522, 6537 |
| M_Poly.v | `plRun` | 6465, 6379, 6415, 6444, 7287, 7269, 6406, 6299, 6769, 6802, 7469, 7485, 7385, 7434, 7522, 6537 |
| M_Seg.v | `seg` | 4885 |
| M_Seg.v | `skind` | 4885 |
| M_Seg.v | `pside` | 4829 |
| M_Seg.v | `segOrder` | 4829 |
| M_Seg.v | `svDefault` | 4892 |
| M_Seg.v | `svNew` | 4900-4909 |
| M_Seg.v | `svConvert` | 4936-4947 |
| M_Seg.v | `svNeg` | 4955-4960 |
| M_Seg.v | `svSet` | 4964-4974 |
| M_Seg.v | `ptTranslate` | 4996-5002 |
| M_Seg.v | `svTranslate` | 4996-5002 |
| M_Seg.v | `svMoveTo` | 5022-5028 |
| M_Seg.v | `svLength` | 5051-5054 |
| M_Seg.v | `svVector` | 5064-5071 |
| M_Seg.v | `svLine` | 5256-5262 |
| M_Seg.v | `svAngleO` | 5081-5099 |
| M_Seg.v | `svAngleL` | 5081-5099 |
| M_Seg.v | `svEq` | 5113-5120, 5126-5129 |
| M_Seg.v | `svLt` | 5113-5120, 5126-5129 |
| M_Seg.v | `svOrthogPts` | 5217-5231 |
| M_Seg.v | `svOrthogSegs` | 5243-5252 |
| M_Seg.v | `svCenter` | 5292-5298 |
| M_Seg.v | `svBisector` | 5305-5309 |
| M_Seg.v | `svSplit` | 5350-5357 |
| M_Seg.v | `svPointAt` | 5415-5430 |
| M_Seg.v | `svSplitAt` | 5365-5382 |
| M_Seg.v | `crossV` | 9080-9102 |
| M_Seg.v | `svPointSide` | 5390-5408 |
| M_Seg.v | `svParallelSegs` | 5442-5470 |
| M_Seg.v | `svDist` | 5513-5563 |
| M_Seg.v | `lineCircle` | 9463-9505 |
| M_Seg.v | `radiusOk` | 3241-3250 |
| M_Seg.v | `svExtended` | 5480-5499 |
| M_Seg.v | `segInterSeg` | 8209-8237 |
| M_Seg.v | `segInterLine` | 8248-8270 |
| M_Seg.v | `sop` | 8248-8270 |
| M_Seg.v | `segStep` | 8248-8270 |
| M_Seg.v | `segRun` | 8248-8270 |
| M_Square.v | `bsCandidates` | 7193-7201 |
| M_Square.v | `bsGood` | 7203-7208 |
| M_Square.v | `bsCorners` | 7210-7232 |
| M_Square.v | `noneTrue` | 7180-7187 |
| M_Square.v | `buildSquare` | 7171-7238, 7240-7255 |
| M_Stream.v | `tpt` | 8359-8475, 4257-4260 |
| M_Stream.v | `tobj` | 8359-8475, 4257-4260 |
| M_Stream.v | `lf` | 8359-8475, 4257-4260 |
| M_Stream.v | `show3` | 8363-8380 |
| M_Stream.v | `showPt` | 8363-8380 |
| M_Stream.v | `showPts` | 8453-8454 |
| M_Stream.v | `spaces` | 8453-8454 |
| M_Stream.v | `setw6` | 8453-8454 |
| M_Stream.v | `showRow` | 1655-1661 |
| M_Stream.v | `showObj` | 8363-8380, 8431-8441, 8413-8419, 8421-8427, 8443-8457, 8460-8467, 2165-2173, 2565-2571, 1652-1663, 2040-2045 |
| M_Stream.v | `showAll` | 8384-8399 |
| M_Stream.v | `showInterM` | 2615-2621, 1189-1204 |
| M_Svg.v | `digitVal` | helper |
| M_Svg.v | `isDigitC` | 12544-12548 |
| M_Svg.v | `pathAllowed` | 12550-12556 |
| M_Svg.v | `tokGo` | 12472-12484 |
| M_Svg.v | `tokenize` | 12472-12484 |
| M_Svg.v | `skipSep` | 12564-12565 |
| M_Svg.v | `takeDigits` | 12577-12581 |
| M_Svg.v | `getNextElem` | 12559-12586 |
| M_Svg.v | `pathCmd` | 12612-12632, 12614-12616 |
| M_Svg.v | `cmd0` | 12612-12632, 12614-12616 |
| M_Svg.v | `numberValues` | 12590-12606 |
| M_Svg.v | `isNewPolyline` | 12626-12631 |
| M_Svg.v | `commands` | 12626-12631 |
| M_Svg.v | `getCommand` | 12696-12736 |
| M_Svg.v | `spanDigits` | 12696-12736 |
| M_Svg.v | `digitsZ` | 12696-12736 |
| M_Svg.v | `scale10` | 12696-12736 |
| M_Svg.v | `stodU` | 12696-12736 |
| M_Svg.v | `stod` | 12696-12736 |
| M_Svg.v | `generateNewPoint` | 12636-12694 |
| M_Svg.v | `pstate` | 12802-12806, 12760-12763 |
| M_Svg.v | `ps0` | 12802-12806, 12760-12763 |
| M_Svg.v | `storeValues` | 12770-12783 |
| M_Svg.v | `pathElem` | 12818-12841 |
| M_Svg.v | `pathLoop` | 12813-12843 |
| M_Svg.v | `pathEnd` | 12845-12858 |
| M_Svg.v | `parsePath` | 12798-12859 |
| M_Svg.v | `parsePoint` | 12522-12541 |
| M_Svg.v | `parsePoints` | 12522-12541 |
| M_Svg.v | `dropLastIfFirst` | 12945-12956 |
| M_Svg.v | `importSvgPoints` | 12945-12956 |
| M_Svg.v | `svgPolygon` | 13009-13021 |
| M_Svg.v | `svgStore` | 13023-13049 |
| M_Svg.v | `svgPath` | 13023-13049 |
| M_Svg.v | `ellipseRotate` | 12486-12516 |
| M_Svg.v | `svgEllipse` | 13052-13064 |
| M_SvgIn.v | `sobj` | 12907-12911 |
| M_SvgIn.v | `attrOf` | 12907-12911 |
| M_SvgIn.v | `getAttribString` | 12934-12942, 13071-13075 |
| M_SvgIn.v | `getAttribValue` | 12918-12928 |
| M_SvgIn.v | `visitExit` | 12966-13078 |
| M_SvgIn.v | `visit` | 12966-13078 |
| M_SvgIn.v | `importSvg` | 12966-13078 |
| M_SvgIn.v | `sizeGo` | 13093-13114 |
| M_SvgIn.v | `getImgSize` | 13093-13114 |
| M_SvgOut.v | `nl` | helper |
| M_SvgOut.v | `qpt` | 11757 |
| M_SvgOut.v | `rgbText` | 690-699 |
| M_SvgOut.v | `fillText` | 12084-12085, 12107-12108, 12131-12132, 12318-12319 |
| M_SvgOut.v | `strokeText` | 12081-12083, 12104-12106, 12128-12130, 12315-12317 |
| M_SvgOut.v | `drawCircle` | 12072-12088 |
| M_SvgOut.v | `drawEllipse` | 12092-12113 |
| M_SvgOut.v | `drawRect` | 12117-12134 |
| M_SvgOut.v | `drawSvgSeg` | 12140-12163 |
| M_SvgOut.v | `hidePts` | 617-621 |
| M_SvgOut.v | `qLt` | 9032-9043, 3558-3562 |
| M_SvgOut.v | `qOrder` | 9032-9043, 3558-3562 |
| M_SvgOut.v | `drawBare` | 12184-12212 |
| M_SvgOut.v | `mark` | 11380-11440 |
| M_SvgOut.v | `qMove` | 11380-11440 |
| M_SvgOut.v | `markPts` | 11380-11440 |
| M_SvgOut.v | `drawMark` | 11380-11440 |
| M_SvgOut.v | `drawPoint` | 11744-11789, 11787 |
| M_SvgOut.v | `drawSegment` | 12184-12212 |
| M_SvgOut.v | `drawOSegment` | 12184-12212 |
| M_SvgOut.v | `qTrunc` | 12184-12212 |
| M_SvgOut.v | `hexChar` | 12040-12054 |
| M_SvgOut.v | `hex2` | 12040-12054 |
| M_SvgOut.v | `drawText` | 12040-12054 |
| M_SvgOut.v | `drawIndex` | 12334-12341 |
| M_SvgOut.v | `drawIndexes` | 12334-12341 |
| M_SvgOut.v | `pointsAttr` | 12334-12341 |
| M_SvgOut.v | `drawPoints` | 12334-12341 |
| M_SvgOut.v | `drawAngles` | 12351-12366 |
| M_SvgOut.v | `drawPoly` | 12297-12370 |
| M_SvgOut.v | `drawing` | 12297-12370 |
| M_SvgOut.v | `drawOne` | 12297-12370 |
| M_SvgOut.v | `drawAll` | 12297-12370 |
| M_SvgOut.v | `svgFile` | 836-853, 12021-12034 |
| M_SvgOut.v | `drawFile` | 836-853, 12021-12034 |
| M_Variant.v | `vobj` | 414-424 |
| M_Variant.v | `vtype` | 932 |
| M_Variant.v | `vType` | 10193-10202, 979-986, 2229-2232, 2670-2673,
      3188-3191, 4053-4059, 4876-4882, 6083-6089 |
| M_Variant.v | `vSize` | 10254-10264, 1033-1040, 2320-2323, 2785-2788,
      3301-3304, 4061-4067, 5045-5048, 6215 |
| M_Variant.v | `vLength` | 10224-10235, 1003-1010, 8618-8626, 2783,
      3313-3316, 4266-4274, 5051-5054, 7469-7479 |
| M_Variant.v | `vArea` | 10239-10250, 1018-1025, 2335-2339, 2782,
      3307-3310, 4277-4278, 5057-5060, 7485-7493 |
| M_Variant.v | `transform` | 10380-10388, 1044-1060, 9701-9709 |
| M_Variant.v | `transformAll` | 2630-2633 |

## 7. `Print Assumptions` of every theorem

* `ClassicalDedekindReals.sig_forall_dec`, `ClassicalDedekindReals.sig_not_dec`, `Classical_Prop.classic`, `FunctionalExtensionality.functional_extensionality_dep`:
  `C04_refuted`, `C139_line_through`, `C12_line_canonical`, `C12_line_rejected`, `C13_dist_is_min`, `C14_angle`, `C14_parallel_relation`, `C15_refuted`, `C16_meet`, `C17_join_meet`, `C18_orthog_refuted`, `C144_orthog`, `C144_parallel`, `C144_parallel_pair`, `C20_orthog_segment`, `C21_points_at_distance`, `C21_point_given_coord`, `C22_strict_total_order`, `C22_fix_order`, `C23_transitive_refuted`, `C146_tolerance`, `C24_refuted`, `C147_collinear`, `C01_inverse_round_trip`, `C01_inverse_throws`, `C02_product_composes`, `C02_product_assoc`, `C03_refuted`, `C138_incidence`, `C138_join`, `C05_refuted`, `C140_fresh`, `C140_fresh_general`, `C06_chain`, `C07_isometry`, `C141_scale`, `C141_sym`, `C08_history_refuted`, `C09_double_inverse`, `C10_refuted`, `C142_singular`, `C11_race_refuted`, `C143_primed`, `C19_refuted`, `C145_rotated`, `C25_distance`, `C26_order`, `C26_commutative`, `C27_refuted`, `C148_ordered`, `C28_split`, `C28_split_at`, `C28_split_at_range`, `C29_point_at`, `C30_side`, `C30_reversed`, `C32_sound`, `C32_complete`, `C32_symmetric`, `C33_extended`, `C34_parallel_oriented`, `C34_parallel`, `C35_bisector`, `C67_sound`, `C67_complete`, `C68_oriented_angle`, `C69_orthogonal_points`, `C43_none`, `C43_points`, `C42_two_points`, `C42_three_points`, `C42_exists`, `C44_sound`, `C44_complete`, `C44_none`, `C44_never_undefined`, `C44_symmetric`, `C45_refuted`, `C149_sound`, `C70_exact`, `C46_inclusion`, `C46_transitive`, `C46_rectangle`, `C47_refuted`, `C47_exception_refuted`, `C47_two_points_refuted`, `C72_radius`, `C48_refuted`, `C150_mec`, `C71_mec`, `C71_random_independent`, `C36_corners`, `C36_rejected`, `C36_from_center`, `C37_intersect_area`, `C38_union_area`, `C39_iou`, `C39_iou_value`, `C40_rotation_laws`, `C40_rotation_region`, `C40_rotation_at`, `C40_translate`, `C41_bounding_circle`, `C41_inscribed_circle`, `C73_refuted`, `C73_corner_refuted`, `C74_rect_inside`, `C74_point_inside`, `C74_order`, `C75_extended`, `C75_diagonals`, `C49_segs`, `C49_count`, `C49_index`, `C49_short_side`, `C49_length`, `C50_refuted`, `C151_length`, `C151_shape`, `C151_centroid`, `C51_value`, `C51_translation`, `C51_cycle`, `C51_affine`, `C52_translation`, `C52_cycle`, `C52_affine`, `C52_barycenter`, `C53_refuted`, `C54_refuted`, `C152_points`, `C76_closed`, `C76_open`, `C76_sound`, `C55_refuted`, `C77_turns`, `C77_cycle`, `C56_box`, `C56_total`, `C78_sound`, `C78_complete`, `C78_total`, `C78_cycle`, `C78_translation`, `C79_extreme`, `C80_regular`, `C80_rejects`, `C81_parallelogram`, `C81_rejects`, `C59_closest`, `C59_empty`, `C59_symmetric`, `C60_coincident_refuted`, `C60_two_coincident_refuted`, `C82_nearest`, `C82_farthest`, `C82_both`, `C82_rejects`, `C61_refuted`, `C61_flat_refuted`, `C83_symmetric`, `C83_smallest`, `C83_defined`, `C84_points`, `C84_segments`, `C84_rectangles`, `C84_variants`, `C84_empty`, `C85_line_refuted`, `C66_refuted`, `C86_runs`, `C86_always`, `C62_vertical_refuted`, `C62_small_refuted`, `C87_center_axes`, `C87_angle`, `C87_same_ellipse`, `C87_exchange`, `C63_matrix`, `C63_incidence`, `C63_defined`, `C63_center_affine`, `C63_symmetric_matrix`, `C88_box`, `C95_box_refuted`, `C89_inside`, `C95_inside_refuted`, `C90_moves`, `C95_translate_refuted`, `C91_from_circle`, `C91_is_circle`, `C92_throws_refuted`, `C92_exchanges_refuted`, `C92_flag_refuted`, `C93_normalised`, `C93_reflexive`, `C93_meaning`, `C94_perimeter`, `C102_axis_lines`, `C103_oriented_box`, `C96_set3`, `C96_history`, `C97_zero`, `C97_same_side`, `C97_other_side`, `C97_positive_side`, `C100_hull`, `C100_object`, `C100_total`, `C58_refuted`, `C101_order`, `C101_idempotent`, `C101_small`, `C57_refuted`, `C105_even_odd`, `C105_answers`, `C105_not_simple`, `C105_outside_box`, `C106_convex`, `C107_segment`, `C107_rectangle`, `C107_polyline`, `C107_any_polygon`, `C65_round_trip`, `C65_stored`, `C108_semantics`, `C108_exact`, `C109_after_close_refuted`, `C109_flag_refuted`, `C109_text_refuted`, `C110_defined`, `C110_characters`, `C111_points`, `C111_import`, `C112_refuted`, `C113_ellipse`, `C114_pivot_refuted`, `C114_tall_refuted`, `C115_outcome`, `C115_points`, `C116_crossing_refuted`, `C116_order_refuted`, `C117_outcome`, `C117_vertices`, `C117_sides`, `C117_product`, `C117_inverse`, `C117_container`, `C118_turns`, `C118_convex`, `C118_affine`, `C118_rectangle`, `C119_refuted`, `C120_vertices`, `C120_empty`, `C121_convex`, `C122_failure_refuted`, `C122_inside_refuted`, `C123_bisectors`, `C123_small`, `C124_distance`, `C124_not_parallel`, `C125_refuted`, `C126_area`, `C126_length`, `C126_translate`, `C126_moveTo`, `C127_area`, `C127_length`, `C128_moveTo`, `C128_empty`, `C128_cache`, `C129_circle`, `C129_rectangle`, `C130_exact`, `C130_side`, `C131_refuted`, `C132_exact`, `C133_open`, `C133_closed`, `C134_refuted`, `C135_exact`, `C136_refuted`, `C137_exact`, `C137_answers`, `C153_maps`, `C153_recovers`, `C153_sizes`, `C154_origin_refuted`, `C155_exact`, `C156_circle`, `C156_rectangle`, `C157_number`, `C157_integer`, `C158_refuted`, `C159_size`, `C160_import`, `C160_exact`, `C167_arrow`, `C168_flat`, `C169_line`, `C169_segment`, `C169_circle`, `C170_even`, `C171_symmetric`, `C171_exact`, `C172_refuted`, `C173_segment`, `C173_polyline`, `C173_crossing`, `C174_exact`, `C159_fill`, `C175_stroke`, `C176_indexes`, `C176_size`, `C177_image`, `C177_reported`, `C177_figure`, `C178_crossing_refuted`, `C179_area`, `C179_similar`, `C179_length`, `C180_types`, `C180_independent`, `C180_valid`, `C180_area`, `C180_length`, `C181_oriented_refuted`, `C182_state`, `C182_inside`, `C182_box`, `C182_exchange`, `C182_image`, `C182_agree`, `C183_angle_refuted`, `C183_small_refuted`, `C183_compare_refuted`, `C183_stale_refuted`, `C184_read`, `C184_container`, `C184_injective`, `C186_drawn`, `C205_stale_refuted`, `C205_equality_refuted`, `C206_first_use`, `C206_normalize`, `C208_rectangle`, `C210_refuted`, `C210_single_refuted`, `C211_square`, `C211_builds`, `C211_all`, `C212_refuted`, `C213_refuted`, `C217_numbers`, `C217_through`, `C217_pair`, `C218_refuted`, `C220_line_refuted`, `C220_point_refuted`, `C221_line`, `C221_point`, `C223_convert`, `C224_sides`, `C228_lines`, `C228_exception`, `C229_refuted`, `C230_segment`, `C230_close`, `C231_refuted`, `C232_polyline`, `C233_rows`
* (none: closed under the global context):
  `C09_double_transpose`, `C31_result_partial`, `C64_refuted`, `C98_default`, `C98_objects`, `C98_range`, `C98_setters`, `C99_next_style`, `C99_holds_fill`, `C99_attr_string`, `C110_empty`, `C155_empty`, `C156_empty`, `C163_text_refuted`, `C163_attr_refuted`, `C185_kind_refuted`, `C185_points_refuted`, `C204_accept`, `C204_roundtrip`, `C204_copy`, `C207_double_refuted`, `C207_float_refuted`, `C208_integer`, `C208_integers`, `C208_nearest`, `C208_points`, `C209_closed`, `C209_unclosed`, `C219_vectors`, `C222_refuted`, `C223_bool`
* `ClassicalDedekindReals.sig_forall_dec`, `FunctionalExtensionality.functional_extensionality_dep`:
  `C31_refuted`, `C104_outside`, `C106_half_planes`, `C127_corners`, `C157_chars`, `C159_document`, `C164_refuted`, `C166_mark`, `C166_outside`, `C175_text`, `C185_digits_refuted`, `C232_rect`
* primitive floats/integers (`PrimFloat.abs`, `PrimFloat.add`, `PrimFloat.div`, `PrimFloat.eqb`, `PrimFloat.float`, `PrimFloat.leb`, `PrimFloat.ltb`, `PrimFloat.mul`, `PrimFloat.of_uint63`, `PrimFloat.opp`, `PrimFloat.sqrt`, `PrimFloat.sub`, `PrimInt63.int`, `PrimInt63.lor`, `PrimInt63.lsl`, `PrimInt63.sub`):
  `C57_throws_refuted`, `C161_refuted`, `C162_refuted`, `C165_refuted`, `C189_nan_refuted`, `C189_segment_refuted`, `C192_line_refuted`, `C192_point_refuted`, `C192_middle_refuted`, `C198_inside_refuted`, `C198_segment_refuted`, `C198_back_refuted`, `C236_refuted`
* `ClassicalDedekindReals.sig_forall_dec`, `ClassicalDedekindReals.sig_not_dec`, `FunctionalExtensionality.functional_extensionality_dep`:
  `C104_any_ray`, `C104_connected`, `C123_equidistant`, `C135_touches`, `C136_none`
* primitive floats/integers (`FloatAxioms.SF2Prim_Prim2SF`, `FloatAxioms.abs_spec`, `FloatAxioms.mul_spec`, `FloatAxioms.sub_spec`, `PrimFloat.abs`, `PrimFloat.add`, `PrimFloat.div`, `PrimFloat.eqb`, `PrimFloat.float`, `PrimFloat.frshiftexp`, `PrimFloat.ldshiftexp`, `PrimFloat.leb`, `PrimFloat.ltb`, `PrimFloat.mul`, `PrimFloat.normfr_mantissa`, `PrimFloat.of_uint63`, `PrimFloat.opp`, `PrimFloat.sqrt`, `PrimFloat.sub`, `PrimInt63.eqb`, `PrimInt63.int`, `PrimInt63.land`, `PrimInt63.lor`, `PrimInt63.lsl`, `PrimInt63.lsr`, `PrimInt63.sub`):
  `C187_points`, `C187_lines`, `C187_segments`
* primitive floats/integers (`FloatAxioms.Prim2SF_valid`, `FloatAxioms.SF2Prim_Prim2SF`, `FloatAxioms.eqb_spec`, `FloatAxioms.ltb_spec`, `PrimFloat.abs`, `PrimFloat.add`, `PrimFloat.div`, `PrimFloat.eqb`, `PrimFloat.float`, `PrimFloat.frshiftexp`, `PrimFloat.ldshiftexp`, `PrimFloat.leb`, `PrimFloat.ltb`, `PrimFloat.mul`, `PrimFloat.normfr_mantissa`, `PrimFloat.of_uint63`, `PrimFloat.opp`, `PrimFloat.sqrt`, `PrimFloat.sub`, `PrimInt63.eqb`, `PrimInt63.int`, `PrimInt63.land`, `PrimInt63.lor`, `PrimInt63.lsl`, `PrimInt63.lsr`, `PrimInt63.sub`):
  `C188_order`
* primitive floats/integers (`FloatAxioms.Prim2SF_valid`, `FloatAxioms.SF2Prim_Prim2SF`, `FloatAxioms.abs_spec`, `FloatAxioms.eqb_spec`, `FloatAxioms.ltb_spec`, `FloatAxioms.mul_spec`, `FloatAxioms.sub_spec`, `PrimFloat.abs`, `PrimFloat.add`, `PrimFloat.div`, `PrimFloat.eqb`, `PrimFloat.float`, `PrimFloat.frshiftexp`, `PrimFloat.ldshiftexp`, `PrimFloat.leb`, `PrimFloat.ltb`, `PrimFloat.mul`, `PrimFloat.normfr_mantissa`, `PrimFloat.of_uint63`, `PrimFloat.opp`, `PrimFloat.sqrt`, `PrimFloat.sub`, `PrimInt63.eqb`, `PrimInt63.int`, `PrimInt63.land`, `PrimInt63.lor`, `PrimInt63.lsl`, `PrimInt63.lsr`, `PrimInt63.sub`):
  `C188_segment`
* primitive floats/integers (`FloatAxioms.Prim2SF_valid`, `FloatAxioms.SF2Prim_Prim2SF`, `FloatAxioms.abs_spec`, `FloatAxioms.eqb_spec`, `FloatAxioms.ltb_spec`, `FloatAxioms.sub_spec`, `PrimFloat.abs`, `PrimFloat.add`, `PrimFloat.div`, `PrimFloat.eqb`, `PrimFloat.float`, `PrimFloat.frshiftexp`, `PrimFloat.ldshiftexp`, `PrimFloat.leb`, `PrimFloat.ltb`, `PrimFloat.mul`, `PrimFloat.normfr_mantissa`, `PrimFloat.of_uint63`, `PrimFloat.opp`, `PrimFloat.sqrt`, `PrimFloat.sub`, `PrimInt63.eqb`, `PrimInt63.int`, `PrimInt63.land`, `PrimInt63.lor`, `PrimInt63.lsl`, `PrimInt63.lsr`, `PrimInt63.sub`):
  `C190_corners`
* primitive floats/integers (`FloatAxioms.Prim2SF_valid`, `FloatAxioms.abs_spec`, `FloatAxioms.eqb_spec`, `FloatAxioms.leb_spec`, `FloatAxioms.ltb_spec`, `FloatAxioms.sub_spec`, `PrimFloat.abs`, `PrimFloat.add`, `PrimFloat.div`, `PrimFloat.eqb`, `PrimFloat.float`, `PrimFloat.frshiftexp`, `PrimFloat.leb`, `PrimFloat.ltb`, `PrimFloat.mul`, `PrimFloat.normfr_mantissa`, `PrimFloat.of_uint63`, `PrimFloat.opp`, `PrimFloat.sqrt`, `PrimFloat.sub`, `PrimInt63.eqb`, `PrimInt63.int`, `PrimInt63.land`, `PrimInt63.lor`, `PrimInt63.lsl`, `PrimInt63.lsr`, `PrimInt63.sub`):
  `C190_ordered`
* primitive floats/integers (`FloatAxioms.Prim2SF_valid`, `FloatAxioms.SF2Prim_Prim2SF`, `FloatAxioms.abs_spec`, `FloatAxioms.add_spec`, `FloatAxioms.div_spec`, `FloatAxioms.eqb_spec`, `FloatAxioms.mul_spec`, `PrimFloat.abs`, `PrimFloat.add`, `PrimFloat.div`, `PrimFloat.eqb`, `PrimFloat.float`, `PrimFloat.frshiftexp`, `PrimFloat.ldshiftexp`, `PrimFloat.leb`, `PrimFloat.ltb`, `PrimFloat.mul`, `PrimFloat.normfr_mantissa`, `PrimFloat.of_uint63`, `PrimFloat.opp`, `PrimFloat.sqrt`, `PrimFloat.sub`, `PrimInt63.eqb`, `PrimInt63.int`, `PrimInt63.land`, `PrimInt63.lor`, `PrimInt63.lsl`, `PrimInt63.lsr`, `PrimInt63.sub`):
  `C191_translation`, `C191_scale`, `C191_identity`
* `ClassicalDedekindReals.sig_forall_dec`, `ClassicalDedekindReals.sig_not_dec`, `Classical_Prop.classic`, `FunctionalExtensionality.functional_extensionality_dep`, primitive floats/integers (`FloatAxioms.Prim2SF_valid`, `FloatAxioms.abs_spec`, `FloatAxioms.eqb_spec`, `FloatAxioms.ltb_spec`, `FloatAxioms.mul_spec`, `FloatAxioms.of_uint63_spec`, `FloatAxioms.opp_spec`, `FloatAxioms.sub_spec`, `PrimFloat.abs`, `PrimFloat.add`, `PrimFloat.div`, `PrimFloat.eqb`, `PrimFloat.float`, `PrimFloat.frshiftexp`, `PrimFloat.leb`, `PrimFloat.ltb`, `PrimFloat.mul`, `PrimFloat.normfr_mantissa`, `PrimFloat.of_uint63`, `PrimFloat.opp`, `PrimFloat.sqrt`, `PrimFloat.sub`, `PrimInt63.add`, `PrimInt63.eqb`, `PrimInt63.int`, `PrimInt63.land`, `PrimInt63.leb`, `PrimInt63.lor`, `PrimInt63.lsl`, `PrimInt63.lsr`, `PrimInt63.ltb`, `PrimInt63.sub`, `Uint63.add_spec`, `Uint63.eqb_correct`, `Uint63.eqb_refl`, `Uint63.leb_spec`, `Uint63.lor_spec`, `Uint63.lsl_spec`, `Uint63.lsr_spec`, `Uint63.ltb_spec`, `Uint63.of_to_Z`, `Uint63.sub_spec`):
  `C193_hull`
* `ClassicalDedekindReals.sig_forall_dec`, `ClassicalDedekindReals.sig_not_dec`, `Classical_Prop.classic`, `FunctionalExtensionality.functional_extensionality_dep`, primitive floats/integers (`FloatAxioms.Prim2SF_valid`, `FloatAxioms.abs_spec`, `FloatAxioms.add_spec`, `FloatAxioms.div_spec`, `FloatAxioms.eqb_spec`, `FloatAxioms.mul_spec`, `FloatAxioms.of_uint63_spec`, `FloatAxioms.opp_spec`, `FloatAxioms.sub_spec`, `PrimFloat.abs`, `PrimFloat.add`, `PrimFloat.div`, `PrimFloat.eqb`, `PrimFloat.float`, `PrimFloat.frshiftexp`, `PrimFloat.leb`, `PrimFloat.ltb`, `PrimFloat.mul`, `PrimFloat.normfr_mantissa`, `PrimFloat.of_uint63`, `PrimFloat.opp`, `PrimFloat.sqrt`, `PrimFloat.sub`, `PrimInt63.add`, `PrimInt63.eqb`, `PrimInt63.int`, `PrimInt63.land`, `PrimInt63.leb`, `PrimInt63.lor`, `PrimInt63.lsl`, `PrimInt63.lsr`, `PrimInt63.ltb`, `PrimInt63.sub`, `Uint63.add_spec`, `Uint63.eqb_correct`, `Uint63.eqb_refl`, `Uint63.leb_spec`, `Uint63.lor_spec`, `Uint63.lsl_spec`, `Uint63.lsr_spec`, `Uint63.ltb_spec`, `Uint63.of_to_Z`, `Uint63.sub_spec`):
  `C194_area`, `C225_centroid`
* `ClassicalDedekindReals.sig_forall_dec`, `ClassicalDedekindReals.sig_not_dec`, `Classical_Prop.classic`, `FunctionalExtensionality.functional_extensionality_dep`, primitive floats/integers (`FloatAxioms.Prim2SF_valid`, `FloatAxioms.eqb_spec`, `FloatAxioms.ltb_spec`, `FloatAxioms.mul_spec`, `FloatAxioms.of_uint63_spec`, `FloatAxioms.opp_spec`, `FloatAxioms.sub_spec`, `PrimFloat.abs`, `PrimFloat.add`, `PrimFloat.div`, `PrimFloat.eqb`, `PrimFloat.float`, `PrimFloat.frshiftexp`, `PrimFloat.leb`, `PrimFloat.ltb`, `PrimFloat.mul`, `PrimFloat.normfr_mantissa`, `PrimFloat.of_uint63`, `PrimFloat.opp`, `PrimFloat.sqrt`, `PrimFloat.sub`, `PrimInt63.add`, `PrimInt63.eqb`, `PrimInt63.int`, `PrimInt63.land`, `PrimInt63.leb`, `PrimInt63.lor`, `PrimInt63.lsl`, `PrimInt63.lsr`, `PrimInt63.ltb`, `PrimInt63.sub`, `Uint63.add_spec`, `Uint63.eqb_correct`, `Uint63.eqb_refl`, `Uint63.leb_spec`, `Uint63.lor_spec`, `Uint63.lsl_spec`, `Uint63.lsr_spec`, `Uint63.ltb_spec`, `Uint63.of_to_Z`, `Uint63.sub_spec`):
  `C194_convex`
* `ClassicalDedekindReals.sig_forall_dec`, `FunctionalExtensionality.functional_extensionality_dep`, primitive floats/integers (`FloatAxioms.Prim2SF_valid`, `FloatAxioms.abs_spec`, `FloatAxioms.eqb_spec`, `FloatAxioms.ltb_spec`, `PrimFloat.abs`, `PrimFloat.add`, `PrimFloat.div`, `PrimFloat.eqb`, `PrimFloat.float`, `PrimFloat.frshiftexp`, `PrimFloat.leb`, `PrimFloat.ltb`, `PrimFloat.mul`, `PrimFloat.normfr_mantissa`, `PrimFloat.of_uint63`, `PrimFloat.opp`, `PrimFloat.sqrt`, `PrimFloat.sub`, `PrimInt63.eqb`, `PrimInt63.int`, `PrimInt63.land`, `PrimInt63.lor`, `PrimInt63.lsl`, `PrimInt63.lsr`, `PrimInt63.sub`):
  `C195_inside`, `C195_box`
* `ClassicalDedekindReals.sig_forall_dec`, `ClassicalDedekindReals.sig_not_dec`, `Classical_Prop.classic`, `FunctionalExtensionality.functional_extensionality_dep`, primitive floats/integers (`FloatAxioms.Prim2SF_valid`, `FloatAxioms.abs_spec`, `FloatAxioms.eqb_spec`, `FloatAxioms.ltb_spec`, `PrimFloat.abs`, `PrimFloat.add`, `PrimFloat.div`, `PrimFloat.eqb`, `PrimFloat.float`, `PrimFloat.frshiftexp`, `PrimFloat.leb`, `PrimFloat.ltb`, `PrimFloat.mul`, `PrimFloat.normfr_mantissa`, `PrimFloat.of_uint63`, `PrimFloat.opp`, `PrimFloat.sqrt`, `PrimFloat.sub`, `PrimInt63.eqb`, `PrimInt63.int`, `PrimInt63.land`, `PrimInt63.lor`, `PrimInt63.lsl`, `PrimInt63.lsr`, `PrimInt63.sub`):
  `C195_extreme`
* `ClassicalDedekindReals.sig_forall_dec`, `FunctionalExtensionality.functional_extensionality_dep`, primitive floats/integers (`FloatAxioms.Prim2SF_valid`, `FloatAxioms.abs_spec`, `FloatAxioms.add_spec`, `FloatAxioms.eqb_spec`, `PrimFloat.abs`, `PrimFloat.add`, `PrimFloat.div`, `PrimFloat.eqb`, `PrimFloat.float`, `PrimFloat.frshiftexp`, `PrimFloat.leb`, `PrimFloat.ltb`, `PrimFloat.mul`, `PrimFloat.normfr_mantissa`, `PrimFloat.of_uint63`, `PrimFloat.opp`, `PrimFloat.sqrt`, `PrimFloat.sub`, `PrimInt63.eqb`, `PrimInt63.int`, `PrimInt63.land`, `PrimInt63.lor`, `PrimInt63.lsl`, `PrimInt63.lsr`, `PrimInt63.sub`):
  `C196_translate`
* `ClassicalDedekindReals.sig_forall_dec`, `FunctionalExtensionality.functional_extensionality_dep`, primitive floats/integers (`FloatAxioms.Prim2SF_valid`, `FloatAxioms.SF2Prim_Prim2SF`, `FloatAxioms.abs_spec`, `FloatAxioms.add_spec`, `FloatAxioms.div_spec`, `FloatAxioms.eqb_spec`, `FloatAxioms.mul_spec`, `PrimFloat.abs`, `PrimFloat.add`, `PrimFloat.div`, `PrimFloat.eqb`, `PrimFloat.float`, `PrimFloat.frshiftexp`, `PrimFloat.ldshiftexp`, `PrimFloat.leb`, `PrimFloat.ltb`, `PrimFloat.mul`, `PrimFloat.normfr_mantissa`, `PrimFloat.of_uint63`, `PrimFloat.opp`, `PrimFloat.sqrt`, `PrimFloat.sub`, `PrimInt63.eqb`, `PrimInt63.int`, `PrimInt63.land`, `PrimInt63.lor`, `PrimInt63.lsl`, `PrimInt63.lsr`, `PrimInt63.sub`):
  `C196_homography`
* `ClassicalDedekindReals.sig_forall_dec`, `FunctionalExtensionality.functional_extensionality_dep`, primitive floats/integers (`FloatAxioms.Prim2SF_valid`, `FloatAxioms.abs_spec`, `FloatAxioms.eqb_spec`, `FloatAxioms.sub_spec`, `PrimFloat.abs`, `PrimFloat.add`, `PrimFloat.div`, `PrimFloat.eqb`, `PrimFloat.float`, `PrimFloat.frshiftexp`, `PrimFloat.leb`, `PrimFloat.ltb`, `PrimFloat.mul`, `PrimFloat.normfr_mantissa`, `PrimFloat.of_uint63`, `PrimFloat.opp`, `PrimFloat.sqrt`, `PrimFloat.sub`, `PrimInt63.eqb`, `PrimInt63.int`, `PrimInt63.land`, `PrimInt63.lor`, `PrimInt63.lsl`, `PrimInt63.lsr`, `PrimInt63.sub`):
  `C196_dimensions`
* `ClassicalDedekindReals.sig_forall_dec`, `FunctionalExtensionality.functional_extensionality_dep`, primitive floats/integers (`FloatAxioms.Prim2SF_valid`, `FloatAxioms.SF2Prim_Prim2SF`, `FloatAxioms.abs_spec`, `FloatAxioms.add_spec`, `FloatAxioms.eqb_spec`, `PrimFloat.abs`, `PrimFloat.add`, `PrimFloat.div`, `PrimFloat.eqb`, `PrimFloat.float`, `PrimFloat.frshiftexp`, `PrimFloat.ldshiftexp`, `PrimFloat.leb`, `PrimFloat.ltb`, `PrimFloat.mul`, `PrimFloat.normfr_mantissa`, `PrimFloat.of_uint63`, `PrimFloat.opp`, `PrimFloat.sqrt`, `PrimFloat.sub`, `PrimInt63.eqb`, `PrimInt63.int`, `PrimInt63.land`, `PrimInt63.lor`, `PrimInt63.lsl`, `PrimInt63.lsr`, `PrimInt63.sub`):
  `C197_rectangle`
* `ClassicalDedekindReals.sig_forall_dec`, `FunctionalExtensionality.functional_extensionality_dep`, primitive floats/integers (`FloatAxioms.Prim2SF_valid`, `FloatAxioms.SF2Prim_Prim2SF`, `FloatAxioms.abs_spec`, `FloatAxioms.add_spec`, `FloatAxioms.eqb_spec`, `FloatAxioms.ltb_spec`, `PrimFloat.abs`, `PrimFloat.add`, `PrimFloat.div`, `PrimFloat.eqb`, `PrimFloat.float`, `PrimFloat.frshiftexp`, `PrimFloat.ldshiftexp`, `PrimFloat.leb`, `PrimFloat.ltb`, `PrimFloat.mul`, `PrimFloat.normfr_mantissa`, `PrimFloat.of_uint63`, `PrimFloat.opp`, `PrimFloat.sqrt`, `PrimFloat.sub`, `PrimInt63.eqb`, `PrimInt63.int`, `PrimInt63.land`, `PrimInt63.lor`, `PrimInt63.lsl`, `PrimInt63.lsr`, `PrimInt63.sub`):
  `C197_box`
* `ClassicalDedekindReals.sig_forall_dec`, `ClassicalDedekindReals.sig_not_dec`, `FunctionalExtensionality.functional_extensionality_dep`, primitive floats/integers (`FloatAxioms.Prim2SF_valid`, `FloatAxioms.abs_spec`, `FloatAxioms.add_spec`, `FloatAxioms.eqb_spec`, `FloatAxioms.mul_spec`, `FloatAxioms.sqrt_spec`, `FloatAxioms.sub_spec`, `PrimFloat.abs`, `PrimFloat.add`, `PrimFloat.div`, `PrimFloat.eqb`, `PrimFloat.float`, `PrimFloat.frshiftexp`, `PrimFloat.leb`, `PrimFloat.ltb`, `PrimFloat.mul`, `PrimFloat.normfr_mantissa`, `PrimFloat.of_uint63`, `PrimFloat.opp`, `PrimFloat.sqrt`, `PrimFloat.sub`, `PrimInt63.eqb`, `PrimInt63.int`, `PrimInt63.land`, `PrimInt63.lor`, `PrimInt63.lsl`, `PrimInt63.lsr`, `PrimInt63.sub`):
  `C199_distance`
* `ClassicalDedekindReals.sig_forall_dec`, `ClassicalDedekindReals.sig_not_dec`, `FunctionalExtensionality.functional_extensionality_dep`, primitive floats/integers (`FloatAxioms.Prim2SF_valid`, `FloatAxioms.abs_spec`, `FloatAxioms.add_spec`, `FloatAxioms.eqb_spec`, `FloatAxioms.ltb_spec`, `FloatAxioms.mul_spec`, `FloatAxioms.sqrt_spec`, `FloatAxioms.sub_spec`, `PrimFloat.abs`, `PrimFloat.add`, `PrimFloat.div`, `PrimFloat.eqb`, `PrimFloat.float`, `PrimFloat.frshiftexp`, `PrimFloat.leb`, `PrimFloat.ltb`, `PrimFloat.mul`, `PrimFloat.normfr_mantissa`, `PrimFloat.of_uint63`, `PrimFloat.opp`, `PrimFloat.sqrt`, `PrimFloat.sub`, `PrimInt63.eqb`, `PrimInt63.int`, `PrimInt63.land`, `PrimInt63.lor`, `PrimInt63.lsl`, `PrimInt63.lsr`, `PrimInt63.sub`):
  `C199_equal`, `C216_point`
* `ClassicalDedekindReals.sig_forall_dec`, `ClassicalDedekindReals.sig_not_dec`, `Classical_Prop.classic`, `FunctionalExtensionality.functional_extensionality_dep`, primitive floats/integers (`FloatAxioms.Prim2SF_valid`, `FloatAxioms.abs_spec`, `FloatAxioms.eqb_spec`, `FloatAxioms.ltb_spec`, `FloatAxioms.mul_spec`, `FloatAxioms.sub_spec`, `PrimFloat.abs`, `PrimFloat.add`, `PrimFloat.div`, `PrimFloat.eqb`, `PrimFloat.float`, `PrimFloat.frshiftexp`, `PrimFloat.leb`, `PrimFloat.ltb`, `PrimFloat.mul`, `PrimFloat.normfr_mantissa`, `PrimFloat.of_uint63`, `PrimFloat.opp`, `PrimFloat.sqrt`, `PrimFloat.sub`, `PrimInt63.eqb`, `PrimInt63.int`, `PrimInt63.land`, `PrimInt63.lor`, `PrimInt63.lsl`, `PrimInt63.lsr`, `PrimInt63.sub`):
  `C200_hull`, `C200_convex`
* `ClassicalDedekindReals.sig_forall_dec`, `ClassicalDedekindReals.sig_not_dec`, `Classical_Prop.classic`, `FunctionalExtensionality.functional_extensionality_dep`, primitive floats/integers (`FloatAxioms.Prim2SF_valid`, `FloatAxioms.abs_spec`, `FloatAxioms.add_spec`, `FloatAxioms.div_spec`, `FloatAxioms.eqb_spec`, `FloatAxioms.mul_spec`, `FloatAxioms.sub_spec`, `PrimFloat.abs`, `PrimFloat.add`, `PrimFloat.div`, `PrimFloat.eqb`, `PrimFloat.float`, `PrimFloat.frshiftexp`, `PrimFloat.leb`, `PrimFloat.ltb`, `PrimFloat.mul`, `PrimFloat.normfr_mantissa`, `PrimFloat.of_uint63`, `PrimFloat.opp`, `PrimFloat.sqrt`, `PrimFloat.sub`, `PrimInt63.eqb`, `PrimInt63.int`, `PrimInt63.land`, `PrimInt63.lor`, `PrimInt63.lsl`, `PrimInt63.lsr`, `PrimInt63.sub`):
  `C201_area`
* `ClassicalDedekindReals.sig_forall_dec`, `ClassicalDedekindReals.sig_not_dec`, `Classical_Prop.classic`, `FunctionalExtensionality.functional_extensionality_dep`, primitive floats/integers (`FloatAxioms.Prim2SF_valid`, `FloatAxioms.abs_spec`, `FloatAxioms.add_spec`, `FloatAxioms.div_spec`, `FloatAxioms.eqb_spec`, `FloatAxioms.ltb_spec`, `FloatAxioms.mul_spec`, `FloatAxioms.sub_spec`, `PrimFloat.abs`, `PrimFloat.add`, `PrimFloat.div`, `PrimFloat.eqb`, `PrimFloat.float`, `PrimFloat.frshiftexp`, `PrimFloat.leb`, `PrimFloat.ltb`, `PrimFloat.mul`, `PrimFloat.normfr_mantissa`, `PrimFloat.of_uint63`, `PrimFloat.opp`, `PrimFloat.sqrt`, `PrimFloat.sub`, `PrimInt63.eqb`, `PrimInt63.int`, `PrimInt63.land`, `PrimInt63.lor`, `PrimInt63.lsl`, `PrimInt63.lsr`, `PrimInt63.sub`):
  `C201_sign`
* `ClassicalDedekindReals.sig_forall_dec`, `ClassicalDedekindReals.sig_not_dec`, `FunctionalExtensionality.functional_extensionality_dep`, primitive floats/integers (`FloatAxioms.Prim2SF_valid`, `FloatAxioms.SF2Prim_Prim2SF`, `FloatAxioms.abs_spec`, `FloatAxioms.add_spec`, `FloatAxioms.div_spec`, `FloatAxioms.eqb_spec`, `FloatAxioms.leb_spec`, `FloatAxioms.ltb_spec`, `FloatAxioms.mul_spec`, `FloatAxioms.opp_spec`, `FloatAxioms.sqrt_spec`, `FloatAxioms.sub_spec`, `PrimFloat.abs`, `PrimFloat.add`, `PrimFloat.div`, `PrimFloat.eqb`, `PrimFloat.float`, `PrimFloat.frshiftexp`, `PrimFloat.ldshiftexp`, `PrimFloat.leb`, `PrimFloat.ltb`, `PrimFloat.mul`, `PrimFloat.normfr_mantissa`, `PrimFloat.of_uint63`, `PrimFloat.opp`, `PrimFloat.sqrt`, `PrimFloat.sub`, `PrimInt63.eqb`, `PrimInt63.int`, `PrimInt63.land`, `PrimInt63.lor`, `PrimInt63.lsl`, `PrimInt63.lsr`, `PrimInt63.sub`):
  `C202_distance`, `C202_ends`, `C202_collinear`
* `ClassicalDedekindReals.sig_forall_dec`, `ClassicalDedekindReals.sig_not_dec`, `Classical_Prop.classic`, `FunctionalExtensionality.functional_extensionality_dep`, primitive floats/integers (`FloatAxioms.Prim2SF_valid`, `FloatAxioms.SF2Prim_Prim2SF`, `FloatAxioms.abs_spec`, `FloatAxioms.add_spec`, `FloatAxioms.div_spec`, `FloatAxioms.eqb_spec`, `FloatAxioms.leb_spec`, `FloatAxioms.ltb_spec`, `FloatAxioms.mul_spec`, `FloatAxioms.opp_spec`, `FloatAxioms.sqrt_spec`, `FloatAxioms.sub_spec`, `PrimFloat.abs`, `PrimFloat.add`, `PrimFloat.div`, `PrimFloat.eqb`, `PrimFloat.float`, `PrimFloat.frshiftexp`, `PrimFloat.ldshiftexp`, `PrimFloat.leb`, `PrimFloat.ltb`, `PrimFloat.mul`, `PrimFloat.normfr_mantissa`, `PrimFloat.of_uint63`, `PrimFloat.opp`, `PrimFloat.sqrt`, `PrimFloat.sub`, `PrimInt63.eqb`, `PrimInt63.int`, `PrimInt63.land`, `PrimInt63.lor`, `PrimInt63.lsl`, `PrimInt63.lsr`, `PrimInt63.sub`):
  `C203_point_at`
* `ClassicalDedekindReals.sig_forall_dec`, `ClassicalDedekindReals.sig_not_dec`, `FunctionalExtensionality.functional_extensionality_dep`, primitive floats/integers (`FloatAxioms.Prim2SF_valid`, `FloatAxioms.SF2Prim_Prim2SF`, `FloatAxioms.abs_spec`, `FloatAxioms.add_spec`, `FloatAxioms.eqb_spec`, `FloatAxioms.ltb_spec`, `FloatAxioms.mul_spec`, `FloatAxioms.sqrt_spec`, `FloatAxioms.sub_spec`, `PrimFloat.abs`, `PrimFloat.add`, `PrimFloat.div`, `PrimFloat.eqb`, `PrimFloat.float`, `PrimFloat.frshiftexp`, `PrimFloat.ldshiftexp`, `PrimFloat.leb`, `PrimFloat.ltb`, `PrimFloat.mul`, `PrimFloat.normfr_mantissa`, `PrimFloat.of_uint63`, `PrimFloat.opp`, `PrimFloat.sqrt`, `PrimFloat.sub`, `PrimInt63.eqb`, `PrimInt63.int`, `PrimInt63.land`, `PrimInt63.lor`, `PrimInt63.lsl`, `PrimInt63.lsr`, `PrimInt63.sub`):
  `C214_length`
* `ClassicalDedekindReals.sig_forall_dec`, `FunctionalExtensionality.functional_extensionality_dep`, primitive floats/integers (`FloatAxioms.Prim2SF_valid`, `FloatAxioms.abs_spec`, `FloatAxioms.add_spec`, `FloatAxioms.eqb_spec`, `FloatAxioms.mul_spec`, `FloatAxioms.of_uint63_spec`, `FloatAxioms.opp_spec`, `FloatAxioms.sub_spec`, `PrimFloat.abs`, `PrimFloat.add`, `PrimFloat.div`, `PrimFloat.eqb`, `PrimFloat.float`, `PrimFloat.frshiftexp`, `PrimFloat.leb`, `PrimFloat.ltb`, `PrimFloat.mul`, `PrimFloat.normfr_mantissa`, `PrimFloat.of_uint63`, `PrimFloat.opp`, `PrimFloat.sqrt`, `PrimFloat.sub`, `PrimInt63.add`, `PrimInt63.eqb`, `PrimInt63.int`, `PrimInt63.land`, `PrimInt63.leb`, `PrimInt63.lor`, `PrimInt63.lsl`, `PrimInt63.lsr`, `PrimInt63.ltb`, `PrimInt63.sub`, `Uint63.add_spec`, `Uint63.eqb_correct`, `Uint63.eqb_refl`, `Uint63.leb_spec`, `Uint63.lor_spec`, `Uint63.lsl_spec`, `Uint63.lsr_spec`, `Uint63.ltb_spec`, `Uint63.of_to_Z`, `Uint63.sub_spec`):
  `C215_length`
* `ClassicalDedekindReals.sig_forall_dec`, `FunctionalExtensionality.functional_extensionality_dep`, primitive floats/integers (`FloatAxioms.Prim2SF_valid`, `FloatAxioms.abs_spec`, `FloatAxioms.eqb_spec`, `FloatAxioms.mul_spec`, `FloatAxioms.sub_spec`, `PrimFloat.abs`, `PrimFloat.add`, `PrimFloat.div`, `PrimFloat.eqb`, `PrimFloat.float`, `PrimFloat.frshiftexp`, `PrimFloat.leb`, `PrimFloat.ltb`, `PrimFloat.mul`, `PrimFloat.normfr_mantissa`, `PrimFloat.of_uint63`, `PrimFloat.opp`, `PrimFloat.sqrt`, `PrimFloat.sub`, `PrimInt63.eqb`, `PrimInt63.int`, `PrimInt63.land`, `PrimInt63.lor`, `PrimInt63.lsl`, `PrimInt63.lsr`, `PrimInt63.sub`):
  `C215_area`, `C227_exact`
* `ClassicalDedekindReals.sig_forall_dec`, `ClassicalDedekindReals.sig_not_dec`, `Classical_Prop.classic`, `FunctionalExtensionality.functional_extensionality_dep`, primitive floats/integers (`FloatAxioms.Prim2SF_valid`, `FloatAxioms.abs_spec`, `FloatAxioms.add_spec`, `FloatAxioms.eqb_spec`, `FloatAxioms.ltb_spec`, `FloatAxioms.mul_spec`, `FloatAxioms.sqrt_spec`, `FloatAxioms.sub_spec`, `PrimFloat.abs`, `PrimFloat.add`, `PrimFloat.div`, `PrimFloat.eqb`, `PrimFloat.float`, `PrimFloat.frshiftexp`, `PrimFloat.leb`, `PrimFloat.ltb`, `PrimFloat.mul`, `PrimFloat.normfr_mantissa`, `PrimFloat.of_uint63`, `PrimFloat.opp`, `PrimFloat.sqrt`, `PrimFloat.sub`, `PrimInt63.eqb`, `PrimInt63.int`, `PrimInt63.land`, `PrimInt63.lor`, `PrimInt63.lsl`, `PrimInt63.lsr`, `PrimInt63.sub`):
  `C216_circle`
* `ClassicalDedekindReals.sig_forall_dec`, `FunctionalExtensionality.functional_extensionality_dep`, primitive floats/integers (`FloatAxioms.Prim2SF_valid`, `FloatAxioms.abs_spec`, `FloatAxioms.add_spec`, `FloatAxioms.div_spec`, `FloatAxioms.eqb_spec`, `FloatAxioms.mul_spec`, `FloatAxioms.of_uint63_spec`, `FloatAxioms.opp_spec`, `PrimFloat.abs`, `PrimFloat.add`, `PrimFloat.div`, `PrimFloat.eqb`, `PrimFloat.float`, `PrimFloat.frshiftexp`, `PrimFloat.leb`, `PrimFloat.ltb`, `PrimFloat.mul`, `PrimFloat.normfr_mantissa`, `PrimFloat.of_uint63`, `PrimFloat.opp`, `PrimFloat.sqrt`, `PrimFloat.sub`, `PrimInt63.add`, `PrimInt63.eqb`, `PrimInt63.int`, `PrimInt63.land`, `PrimInt63.leb`, `PrimInt63.lor`, `PrimInt63.lsl`, `PrimInt63.lsr`, `PrimInt63.ltb`, `PrimInt63.sub`, `Uint63.add_spec`, `Uint63.eqb_correct`, `Uint63.eqb_refl`, `Uint63.leb_spec`, `Uint63.lor_spec`, `Uint63.lsl_spec`, `Uint63.lsr_spec`, `Uint63.ltb_spec`, `Uint63.of_to_Z`, `Uint63.sub_spec`):
  `C226_segment`, `C226_rect`
* `ClassicalDedekindReals.sig_forall_dec`, `ClassicalDedekindReals.sig_not_dec`, `FunctionalExtensionality.functional_extensionality_dep`, primitive floats/integers (`FloatAxioms.Prim2SF_valid`, `FloatAxioms.abs_spec`, `FloatAxioms.add_spec`, `FloatAxioms.eqb_spec`, `FloatAxioms.mul_spec`, `FloatAxioms.of_uint63_spec`, `FloatAxioms.opp_spec`, `FloatAxioms.sqrt_spec`, `FloatAxioms.sub_spec`, `PrimFloat.abs`, `PrimFloat.add`, `PrimFloat.div`, `PrimFloat.eqb`, `PrimFloat.float`, `PrimFloat.frshiftexp`, `PrimFloat.leb`, `PrimFloat.ltb`, `PrimFloat.mul`, `PrimFloat.normfr_mantissa`, `PrimFloat.of_uint63`, `PrimFloat.opp`, `PrimFloat.sqrt`, `PrimFloat.sub`, `PrimInt63.add`, `PrimInt63.eqb`, `PrimInt63.int`, `PrimInt63.land`, `PrimInt63.leb`, `PrimInt63.lor`, `PrimInt63.lsl`, `PrimInt63.lsr`, `PrimInt63.ltb`, `PrimInt63.sub`, `Uint63.add_spec`, `Uint63.eqb_correct`, `Uint63.eqb_refl`, `Uint63.leb_spec`, `Uint63.lor_spec`, `Uint63.lsl_spec`, `Uint63.lsr_spec`, `Uint63.ltb_spec`, `Uint63.of_to_Z`, `Uint63.sub_spec`):
  `C234_distance`
* `ClassicalDedekindReals.sig_forall_dec`, `ClassicalDedekindReals.sig_not_dec`, `FunctionalExtensionality.functional_extensionality_dep`, primitive floats/integers (`FloatAxioms.Prim2SF_valid`, `FloatAxioms.abs_spec`, `FloatAxioms.add_spec`, `FloatAxioms.eqb_spec`, `FloatAxioms.ltb_spec`, `FloatAxioms.mul_spec`, `FloatAxioms.of_uint63_spec`, `FloatAxioms.opp_spec`, `FloatAxioms.sqrt_spec`, `FloatAxioms.sub_spec`, `PrimFloat.abs`, `PrimFloat.add`, `PrimFloat.div`, `PrimFloat.eqb`, `PrimFloat.float`, `PrimFloat.frshiftexp`, `PrimFloat.leb`, `PrimFloat.ltb`, `PrimFloat.mul`, `PrimFloat.normfr_mantissa`, `PrimFloat.of_uint63`, `PrimFloat.opp`, `PrimFloat.sqrt`, `PrimFloat.sub`, `PrimInt63.add`, `PrimInt63.eqb`, `PrimInt63.int`, `PrimInt63.land`, `PrimInt63.leb`, `PrimInt63.lor`, `PrimInt63.lsl`, `PrimInt63.lsr`, `PrimInt63.ltb`, `PrimInt63.sub`, `Uint63.add_spec`, `Uint63.eqb_correct`, `Uint63.eqb_refl`, `Uint63.leb_spec`, `Uint63.lor_spec`, `Uint63.lsl_spec`, `Uint63.lsr_spec`, `Uint63.ltb_spec`, `Uint63.of_to_Z`, `Uint63.sub_spec`):
  `C234_equal`, `C235_point`, `C235_circle`, `C240_equal`, `C240_in_circle`, `C240_points`
* primitive floats/integers (`FloatAxioms.Prim2SF_valid`, `FloatAxioms.add_spec`, `FloatAxioms.eqb_spec`, `FloatAxioms.ltb_spec`, `FloatAxioms.of_uint63_spec`, `FloatAxioms.opp_spec`, `FloatAxioms.sub_spec`, `PrimFloat.abs`, `PrimFloat.add`, `PrimFloat.div`, `PrimFloat.eqb`, `PrimFloat.float`, `PrimFloat.frshiftexp`, `PrimFloat.leb`, `PrimFloat.ltb`, `PrimFloat.mul`, `PrimFloat.normfr_mantissa`, `PrimFloat.of_uint63`, `PrimFloat.opp`, `PrimFloat.sqrt`, `PrimFloat.sub`, `PrimInt63.add`, `PrimInt63.eqb`, `PrimInt63.int`, `PrimInt63.land`, `PrimInt63.leb`, `PrimInt63.lor`, `PrimInt63.lsl`, `PrimInt63.lsr`, `PrimInt63.ltb`, `PrimInt63.sub`, `Uint63.add_spec`, `Uint63.eqb_correct`, `Uint63.eqb_refl`, `Uint63.leb_spec`, `Uint63.lor_spec`, `Uint63.lsl_spec`, `Uint63.lsr_spec`, `Uint63.ltb_spec`, `Uint63.of_to_Z`, `Uint63.sub_spec`):
  `C235_rect`
* `ClassicalDedekindReals.sig_forall_dec`, `ClassicalDedekindReals.sig_not_dec`, `FunctionalExtensionality.functional_extensionality_dep`, primitive floats/integers (`FloatAxioms.Prim2SF_valid`, `FloatAxioms.abs_spec`, `FloatAxioms.add_spec`, `FloatAxioms.div_spec`, `FloatAxioms.eqb_spec`, `FloatAxioms.leb_spec`, `FloatAxioms.ltb_spec`, `FloatAxioms.mul_spec`, `FloatAxioms.of_uint63_spec`, `FloatAxioms.opp_spec`, `FloatAxioms.sqrt_spec`, `FloatAxioms.sub_spec`, `PrimFloat.abs`, `PrimFloat.add`, `PrimFloat.div`, `PrimFloat.eqb`, `PrimFloat.float`, `PrimFloat.frshiftexp`, `PrimFloat.leb`, `PrimFloat.ltb`, `PrimFloat.mul`, `PrimFloat.normfr_mantissa`, `PrimFloat.of_uint63`, `PrimFloat.opp`, `PrimFloat.sqrt`, `PrimFloat.sub`, `PrimInt63.add`, `PrimInt63.eqb`, `PrimInt63.int`, `PrimInt63.land`, `PrimInt63.leb`, `PrimInt63.lor`, `PrimInt63.lsl`, `PrimInt63.lsr`, `PrimInt63.ltb`, `PrimInt63.sub`, `Uint63.add_spec`, `Uint63.eqb_correct`, `Uint63.eqb_refl`, `Uint63.leb_spec`, `Uint63.lor_spec`, `Uint63.lsl_spec`, `Uint63.lsr_spec`, `Uint63.ltb_spec`, `Uint63.of_to_Z`, `Uint63.sub_spec`):
  `C237_count`
* `ClassicalDedekindReals.sig_forall_dec`, `ClassicalDedekindReals.sig_not_dec`, `Classical_Prop.classic`, `FunctionalExtensionality.functional_extensionality_dep`, primitive floats/integers (`FloatAxioms.Prim2SF_valid`, `FloatAxioms.abs_spec`, `FloatAxioms.add_spec`, `FloatAxioms.eqb_spec`, `FloatAxioms.ltb_spec`, `FloatAxioms.mul_spec`, `FloatAxioms.of_uint63_spec`, `FloatAxioms.opp_spec`, `FloatAxioms.sqrt_spec`, `FloatAxioms.sub_spec`, `PrimFloat.abs`, `PrimFloat.add`, `PrimFloat.div`, `PrimFloat.eqb`, `PrimFloat.float`, `PrimFloat.frshiftexp`, `PrimFloat.leb`, `PrimFloat.ltb`, `PrimFloat.mul`, `PrimFloat.normfr_mantissa`, `PrimFloat.of_uint63`, `PrimFloat.opp`, `PrimFloat.sqrt`, `PrimFloat.sub`, `PrimInt63.add`, `PrimInt63.eqb`, `PrimInt63.int`, `PrimInt63.land`, `PrimInt63.leb`, `PrimInt63.lor`, `PrimInt63.lsl`, `PrimInt63.lsr`, `PrimInt63.ltb`, `PrimInt63.sub`, `Uint63.add_spec`, `Uint63.eqb_correct`, `Uint63.eqb_refl`, `Uint63.leb_spec`, `Uint63.lor_spec`, `Uint63.lsl_spec`, `Uint63.lsr_spec`, `Uint63.ltb_spec`, `Uint63.of_to_Z`, `Uint63.sub_spec`):
  `C238_nearest`, `C238_farthest`, `C238_both`
* `ClassicalDedekindReals.sig_forall_dec`, `ClassicalDedekindReals.sig_not_dec`, `Classical_Prop.classic`, `FunctionalExtensionality.functional_extensionality_dep`, primitive floats/integers (`FloatAxioms.Prim2SF_valid`, `FloatAxioms.SF2Prim_Prim2SF`, `FloatAxioms.abs_spec`, `FloatAxioms.add_spec`, `FloatAxioms.eqb_spec`, `FloatAxioms.ltb_spec`, `FloatAxioms.mul_spec`, `FloatAxioms.of_uint63_spec`, `FloatAxioms.opp_spec`, `FloatAxioms.sqrt_spec`, `FloatAxioms.sub_spec`, `PrimFloat.abs`, `PrimFloat.add`, `PrimFloat.div`, `PrimFloat.eqb`, `PrimFloat.float`, `PrimFloat.frshiftexp`, `PrimFloat.ldshiftexp`, `PrimFloat.leb`, `PrimFloat.ltb`, `PrimFloat.mul`, `PrimFloat.normfr_mantissa`, `PrimFloat.of_uint63`, `PrimFloat.opp`, `PrimFloat.sqrt`, `PrimFloat.sub`, `PrimInt63.add`, `PrimInt63.eqb`, `PrimInt63.int`, `PrimInt63.land`, `PrimInt63.leb`, `PrimInt63.lor`, `PrimInt63.lsl`, `PrimInt63.lsr`, `PrimInt63.ltb`, `PrimInt63.sub`, `Uint63.add_spec`, `Uint63.eqb_correct`, `Uint63.eqb_refl`, `Uint63.leb_spec`, `Uint63.lor_spec`, `Uint63.lsl_spec`, `Uint63.lsr_spec`, `Uint63.ltb_spec`, `Uint63.of_to_Z`, `Uint63.sub_spec`):
  `C239_closest`
* `ClassicalDedekindReals.sig_forall_dec`, `FunctionalExtensionality.functional_extensionality_dep`, primitive floats/integers (`FloatAxioms.Prim2SF_valid`, `FloatAxioms.add_spec`, `FloatAxioms.mul_spec`, `FloatAxioms.of_uint63_spec`, `FloatAxioms.opp_spec`, `FloatAxioms.sub_spec`, `PrimFloat.abs`, `PrimFloat.add`, `PrimFloat.div`, `PrimFloat.eqb`, `PrimFloat.float`, `PrimFloat.frshiftexp`, `PrimFloat.leb`, `PrimFloat.ltb`, `PrimFloat.mul`, `PrimFloat.normfr_mantissa`, `PrimFloat.of_uint63`, `PrimFloat.opp`, `PrimFloat.sqrt`, `PrimFloat.sub`, `PrimInt63.add`, `PrimInt63.eqb`, `PrimInt63.int`, `PrimInt63.land`, `PrimInt63.leb`, `PrimInt63.lor`, `PrimInt63.lsl`, `PrimInt63.lsr`, `PrimInt63.ltb`, `PrimInt63.sub`, `Uint63.add_spec`, `Uint63.eqb_correct`, `Uint63.eqb_refl`, `Uint63.leb_spec`, `Uint63.lor_spec`, `Uint63.lsl_spec`, `Uint63.lsr_spec`, `Uint63.ltb_spec`, `Uint63.of_to_Z`, `Uint63.sub_spec`):
  `C240_sizes`
