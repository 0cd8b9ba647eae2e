{"id": "C01", "title": "Homography inverse undoes the homography", "statement": "If Homogr_::inverse() returns normally on H, then applying the inverted object to H*p gives back the Euclidean coordinates of p, and applying H to (inverse*p) likewise.", "quantifier": "every 3x3 homography whose inverse() returns, every finite point whose image is finite", "why_tests_cant": "the set of matrices and points is infinite; sampled matrices say nothing about ill-scaled ones", "anchors": ["homog2d.hpp: Matrix_::inverse, Matrix_::p_adjugate, Matrix_::determ, Hmatrix_::inverse, operator*(Homogr_,Point2d_)"]}
{"id": "C02", "title": "Product of homographies is composition", "statement": "(A*B)*p has the same Euclidean coordinates as A*(B*p) whenever A*B returns normally, and the product is associative up to the normalisation.", "quantifier": "all pairs/triples of homographies, all finite points with finite images", "why_tests_cant": "infinite domain; normalisation by element (2,2) interacts with every product", "anchors": ["homog2d.hpp: operator*(Hmatrix_,Hmatrix_), detail::product, Hmatrix_::normalize"]}
{"id": "C03", "title": "Homographies preserve incidence", "statement": "A point p lies on a line l if and only if H*p lies on H*l; and the image of the line through p and q is the line through H*p and H*q.", "quantifier": "every invertible homography (inverse() returns), every line, every point", "why_tests_cant": "quantifies over all lines, points and matrices", "anchors": ["homog2d.hpp: operator*(Homogr_,Line2d_), operator*(Homogr_,Point2d_), detail::product"]}
{"id": "C04", "title": "A line built from two points passes through both", "statement": "Line2d(p,q) (and p*q) returns a line whose distance to p and to q is zero.", "quantifier": "all pairs of distinct finite points", "why_tests_cant": "the failing inputs form a thin set (almost horizontal direction, long lever arm) that random tests do not hit", "anchors": ["homog2d.hpp: operator*(Point2d_,Point2d_), LPBase::impl_normalize (lines)"]}
{"id": "C05", "title": "Line transform always uses the current matrix", "statement": "After any history of operations on a Homogr_ object, H*line is computed from the current value of the matrix (the cached inverse-transpose is never stale).", "quantifier": "all finite sequences of constructors, setters, getRaw()/value() writes, add*/set*, inverse, transpose, init, copy, assignment, comparisons and line products", "why_tests_cant": "history property: tests try a handful of sequences", "anchors": ["homog2d.hpp: Hmatrix_::_hasChanged, Hmatrix_::_hmt, operator*(Homogr_,Line2d_), Matrix_::set, Matrix_::value, Matrix_::getRaw, Matrix_::transpose, Hmatrix_::init"]}
{"id": "C06", "title": "Chained add* calls apply the transformations in call order", "statement": "Starting from a default homography, H.addX(..).addY(..)... applied to p equals applying X, then Y, ... to p with the textbook formulas for translation, rotation and scaling.", "quantifier": "all finite lists of addTranslation/addRotation/addScale with any parameters, all points", "why_tests_cant": "unbounded chains of calls", "anchors": ["homog2d.hpp: Hmatrix_::addTranslation, addRotation, addScale, setTranslation, setRotation, setScale"]}
{"id": "C07", "title": "Rotation/translation chains are isometries", "statement": "A homography built only from addRotation/addTranslation preserves all point-to-point distances (and line angles).", "quantifier": "all finite chains, all pairs of points", "why_tests_cant": "unbounded chains and continuous parameters", "anchors": ["homog2d.hpp: Hmatrix_::addRotation, addTranslation, operator*(Homogr_,Point2d_)"]}
{"id": "C08", "title": "Homography equality ignores scale", "statement": "Two homographies constructed from matrices M and k*M (k non zero) compare equal, comparison is symmetric, and == compares current contents.", "quantifier": "all matrices with usable (2,2) element, all non-zero k; all histories for the last clause", "why_tests_cant": "infinite family; the stale flag only shows for specific histories", "anchors": ["homog2d.hpp: Hmatrix_::operator==, Hmatrix_::normalize, Matrix_::_isNormalized, Matrix_::set, Hmatrix_::operator="]}
{"id": "C09", "title": "Double inverse and double transpose are the identity", "statement": "inverse() twice gives back the normalised matrix; transpose() twice gives back the same matrix.", "quantifier": "all homographies for which both calls return", "why_tests_cant": "infinite domain", "anchors": ["homog2d.hpp: Matrix_::inverse, Matrix_::transpose, Hmatrix_::inverse"]}
{"id": "C10", "title": "A failing inverse() leaves the object untouched", "statement": "If inverse() throws, the homography still holds its previous matrix.", "quantifier": "all homographies for which inverse() throws", "why_tests_cant": "needs the rare case of an invertible matrix whose inverse has a null (2,2) element", "anchors": ["homog2d.hpp: Hmatrix_::inverse, Matrix_::inverse, Matrix_::p_normalizeMat"]}
{"id": "C11", "title": "Concurrent const use of a shared homography is safe", "statement": "Two threads that only evaluate the const operation H*line on the same object both get the same result as a sequential execution.", "quantifier": "all interleavings of two (or more) threads", "why_tests_cant": "schedule property: failing interleavings are rare in practice", "anchors": ["homog2d.hpp: operator*(Homogr_,Line2d_), Hmatrix_::_hmt, Hmatrix_::_hasChanged"]}
{"id": "C12", "title": "Normalised line representation is canonical", "statement": "Any two proportional non-degenerate coefficient triples produce the same stored line, the stored (a,b) has unit norm, and normalising again changes nothing.", "quantifier": "all triples with hypot(a,b) above the threshold, all non-zero factors", "why_tests_cant": "continuous domain with sign case splits", "anchors": ["homog2d.hpp: LPBase::impl_normalize (lines), LPBase 3-value constructor"]}
{"id": "C13", "title": "Line/point distance is the minimum distance", "statement": "line.distTo(p) is a lower bound of the distance from p to every point of the line and is attained by one of them.", "quantifier": "all non-degenerate lines, all points", "why_tests_cant": "universally quantified minimum", "anchors": ["homog2d.hpp: LPBase::impl_distToPoint (lines)"]}
{"id": "C14", "title": "Line angle is a well-behaved measure", "statement": "getAngle of two lines is in [0,PI/2], symmetric, zero for parallel directions, PI/2 for orthogonal ones; isParallelTo is symmetric and reflexive.", "quantifier": "all pairs of non-degenerate lines", "why_tests_cant": "continuous domain, clamping branch", "anchors": ["homog2d.hpp: LPBase::getAngle, LPBase::isParallelTo"]}
{"id": "C15", "title": "Lines that compare equal are the same line (up to tolerance)", "statement": "If line1==line2 then every point of one lying in the unit neighbourhood of the origin is within a small distance of the other.", "quantifier": "all pairs of normalised lines", "why_tests_cant": "only special nearly horizontal pairs break it", "anchors": ["homog2d.hpp: LPBase::impl_op_equal (lines)"]}
{"id": "C16", "title": "Intersection of two lines is their common point", "statement": "If l1*l2 returns normally, the point lies on both lines, is the only such point, and l2*l1 is the same point.", "quantifier": "all pairs of non-parallel lines", "why_tests_cant": "continuous domain", "anchors": ["homog2d.hpp: operator*(Line2d_,Line2d_), LPBase::intersects(Line2d_), detail::crossProduct"]}
{"id": "C17", "title": "Join and meet are dual", "statement": "The intersection of the line through p,q and the line through p,r is p.", "quantifier": "all triples of finite points for which no call throws and no line falls in the sign-fix zone", "why_tests_cant": "infinite domain", "anchors": ["homog2d.hpp: operator*(Point2d_,Point2d_), operator*(Line2d_,Line2d_)"]}
{"id": "C18", "title": "Orthogonal and parallel lines through a point", "statement": "getOrthogLine(p) passes through p and is orthogonal to the line; getParallelLine(p) passes through p with the same direction; getParallelLines(d) returns the two lines at distance d.", "quantifier": "all normalised lines, all points, all d", "why_tests_cant": "continuous domain with sign normalisation", "anchors": ["homog2d.hpp: priv::getOrthogonalLine_B2, LPBase::getOrthogLine, getParallelLine, getParallelLines"]}
{"id": "C19", "title": "Rotated line", "statement": "getRotatedLine(p,theta) passes through p and its direction is the original direction rotated by theta.", "quantifier": "all normalised lines, all points on them, all angles", "why_tests_cant": "continuous domain; composed of three homographies, an inverse and a transpose", "anchors": ["homog2d.hpp: LPBase::getRotatedLine"]}
{"id": "C20", "title": "Orthogonal segment is the projection", "statement": "getOrthogSegment(p) starts on the line, ends at p, is orthogonal to the line and its length is line.distTo(p).", "quantifier": "all normalised lines, all points further than the threshold", "why_tests_cant": "continuous domain", "anchors": ["homog2d.hpp: LPBase::getOrthogSegment"]}
{"id": "C21", "title": "Points at a given distance along a line", "statement": "getPoints(p,d) returns two points of the line, both at distance d from p, in increasing order.", "quantifier": "all lines, points on the line, distances", "why_tests_cant": "continuous domain", "anchors": ["homog2d.hpp: priv::getPoints_B2, LPBase::getPoints"]}
{"id": "C22", "title": "Point ordering is a strict total order on coordinates", "statement": "operator< is irreflexive, transitive and total with respect to coordinate equality; swapping into order is idempotent.", "quantifier": "all points (triples)", "why_tests_cant": "transitivity quantifies over triples of reals", "anchors": ["homog2d.hpp: LPBase::operator<, priv::fix_order"]}
{"id": "C23", "title": "Point equality is an equivalence relation", "statement": "operator== on points is reflexive, symmetric and transitive.", "quantifier": "all triples of points", "why_tests_cant": "needs triples straddling the tolerance", "anchors": ["homog2d.hpp: LPBase::impl_op_equal (points)"]}
{"id": "C24", "title": "Collinearity test does not depend on argument order", "statement": "areCollinear(p,q,r) gives the same answer for every permutation of its arguments, and true exactly when two points coincide or the smallest altitude of the triangle is below the threshold.", "quantifier": "all triples of points, all 6 permutations", "why_tests_cant": "continuous domain with 6-way case analysis on distances, including ties", "anchors": ["homog2d.hpp: areCollinear, priv::getLargestDistancePoints"]}
{"id": "C25", "title": "Distance from a point to a segment is the minimum distance", "statement": "Segment.distTo(p) is a lower bound of the distances from p to all points of the segment and is attained; segDistCase tells which part of the segment attains it.", "quantifier": "all segments with distinct ends, all points", "why_tests_cant": "universally quantified minimum", "anchors": ["homog2d.hpp: SegVec::distTo"]}
{"id": "C26", "title": "A segment always stores its points in order", "statement": "After any history of construction, set, translate, moveTo on a Segment, getPts().first < getPts().second; and Segment(p,q) equals Segment(q,p).", "quantifier": "all finite histories, all points", "why_tests_cant": "history property", "anchors": ["homog2d.hpp: SegVec constructors, SegVec::set, translate, moveTo, priv::fix_order"]}
{"id": "C27", "title": "Converting an oriented segment to a plain segment keeps equality meaningful", "statement": "Segment(OSegment(p,q)) equals Segment(p,q).", "quantifier": "all pairs of distinct points", "why_tests_cant": "the constructor tests the wrong template parameter; only decreasing pairs show it", "anchors": ["homog2d.hpp: SegVec copy-constructor"]}
{"id": "C28", "title": "Splitting a segment", "statement": "split() yields two segments sharing the middle point with lengths summing to the original; split(d) puts the cut at distance d from the start and on the segment.", "quantifier": "all segments; for split(): both halves at least nullDistance long, otherwise it throws; for split(d): nullDistance <= d <= length-nullDistance and direction outside the sign-fix zone of C04", "why_tests_cant": "continuous domain", "anchors": ["homog2d.hpp: SegVec::split, SegVec::getPointAt, SegVec::getCenter"]}
{"id": "C29", "title": "Point at distance on an oriented segment", "statement": "getPointAt(d) is start + d * unit direction, for every d>=0.", "quantifier": "all oriented segments whose direction is outside the sign-fix zone (exactly axis-parallel, or not within nullDenom of it; the zone itself is the subject of C04), all d>=0", "why_tests_cant": "continuous domain; nearest-of-two selection", "anchors": ["homog2d.hpp: SegVec::getPointAt"]}
{"id": "C30", "title": "Side of a point is orientation-antisymmetric", "statement": "getPointSide is Left/Right exactly according to the sign of the cross product, and reversing the segment exchanges Left and Right.", "quantifier": "all oriented segments and points away from the endpoints", "why_tests_cant": "continuous domain", "anchors": ["homog2d.hpp: SegVec::getPointSide, detail::crossProductV, priv::sign"]}
{"id": "C31", "title": "Reversing operator does not modify its operand", "statement": "Evaluating -s on an oriented segment returns the reversed segment and leaves s unchanged.", "quantifier": "all oriented segments", "why_tests_cant": "simple but never checked: tests only look at the result", "anchors": ["homog2d.hpp: SegVec::operator-"]}
{"id": "C32", "title": "Segment/segment intersection is sound and complete", "statement": "If s1.intersects(s2) reports a point, that point lies on both segments (within tolerance); if the segments cross and are not parallel, a point is reported; the relation is symmetric.", "quantifier": "all pairs of segments whose direction is outside the sign-fix zone (exactly axis-parallel, or not within nullDenom of it; the zone itself is the subject of C04)", "why_tests_cant": "continuous domain with tolerance branches", "anchors": ["homog2d.hpp: SegVec::intersects(SegVec)"]}
{"id": "C33", "title": "Extended segment", "statement": "getExtended() returns the segment with the same middle, on the same line, and three times the length.", "quantifier": "all segments whose direction is outside the sign-fix zone (exactly axis-parallel, or not within nullDenom of it; the zone itself is the subject of C04)", "why_tests_cant": "composition of line, two circles and two intersections", "anchors": ["homog2d.hpp: SegVec::getExtended, LPBase::impl_intersectsCircle"]}
{"id": "C34", "title": "Parallel segments", "statement": "getParallelSegs(d) returns two segments with the same vector, translated by d on each side; for an oriented segment the first one is on the left.", "quantifier": "all segments whose direction is outside the sign-fix zone (exactly axis-parallel, or not within nullDenom of it; the zone itself is the subject of C04), all d>0 (left/right order: all d>=nullDistance, since closer points compare equal to the end points)", "why_tests_cant": "continuous domain", "anchors": ["homog2d.hpp: SegVec::getParallelSegs"]}
{"id": "C35", "title": "Perpendicular bisector", "statement": "getBisector() is exactly the set of points equidistant from both ends.", "quantifier": "all segments (outside the sign-fix zone), all points", "why_tests_cant": "universally quantified set equality", "anchors": ["homog2d.hpp: SegVec::getBisector"]}
{"id": "C36", "title": "Rectangle does not depend on which corners are given", "statement": "FRect(p,q) gives the same rectangle for any of the two diagonals in any order; getPts() are the bottom-left and top-right corners, width and height are positive.", "quantifier": "all pairs of points whose coordinates differ by at least nullOrthogDistance (the others are rejected)", "why_tests_cant": "continuous domain", "anchors": ["homog2d.hpp: FRect_ constructors, FRect_::set, priv::getCorrectPoints"]}
{"id": "C37", "title": "Rectangle intersection area is the area of the common region", "statement": "r1.intersectArea(r2)'s rectangle is exactly the set of points common to both; it is empty exactly when the interiors do not meet; symmetric.", "quantifier": "all pairs of rectangles, in every relative position, whose coordinates are pairwise equal or at least nullDistance apart", "why_tests_cant": "36+ relative positions, shared edges and corners", "anchors": ["homog2d.hpp: FRect_::intersectArea"]}
{"id": "C38", "title": "Rectangle union polygon", "statement": "unionArea of two rectangles returns a closed polygon whose area is A1+A2-Aint and whose interior (even-odd rule) is the union of the two rectangles, for every relative position of rectangles whose interiors meet.", "quantifier": "all pairs of rectangles whose interiors meet and whose coordinates are pairwise equal or at least nullDistance apart; all points of the plane", "why_tests_cant": "table walk over a 4x4 grid; finite number of coincidence patterns but infinite coordinates", "anchors": ["homog2d.hpp: FRect_::unionArea, priv::runion"]}
{"id": "C39", "title": "Intersection over union", "statement": "IoU(r1,r2) is in [0,1], symmetric, equals 1 exactly when the rectangles coincide and 0 exactly when the interiors do not meet.", "quantifier": "all pairs of rectangles whose coordinates are pairwise equal or at least nullDistance apart", "why_tests_cant": "continuous domain", "anchors": ["homog2d.hpp: IoU, FRect_::intersectArea, FRect_::area"]}
{"id": "C40", "title": "Rectangle rotation and translation laws", "statement": "Rotating a rectangle by 90 degrees four times, or CW then CCW, or mirroring twice, gives back the original; translation commutes with size, width, height and area.", "quantifier": "all rectangles with sides of at least nullOrthogDistance and a diagonal of at least nullDistance, all rotation types, all reference points, all translations", "why_tests_cant": "continuous domain", "anchors": ["homog2d.hpp: FRect_::rotate, FRect_::translate, PolylineBase::rotate, Rotate"]}
{"id": "C41", "title": "Bounding and inscribed circles of a rectangle", "statement": "getBoundingCircle passes through the four corners; getInscribedCircle is inside the rectangle and touches its two nearest sides.", "quantifier": "all rectangles whose sides are at least nullDistance (bounding circle: diagonal of at least twice nullDistance)", "why_tests_cant": "continuous domain", "anchors": ["homog2d.hpp: FRect_::getBoundingCircle, getInscribedCircle"]}
{"id": "C42", "title": "Circle from two or three points", "statement": "Circle(p,q) has pq as diameter; Circle(p,q,r) passes through the three points whenever it does not throw.", "quantifier": "all pairs of points; all triples of points whose pairs are outside the sign-fix zone of C04", "why_tests_cant": "continuous domain", "anchors": ["homog2d.hpp: Circle_::set(pt,pt), Circle_::set(pt,pt,pt)"]}
{"id": "C43", "title": "Line/circle intersection is sound and complete", "statement": "The reported points are on the circle and on the line, ordered; a point common to both is one of the two reported; none reported exactly when the line is further than the radius.", "quantifier": "all lines, all circles, all common points", "why_tests_cant": "continuous domain", "anchors": ["homog2d.hpp: LPBase::impl_intersectsCircle"]}
{"id": "C44", "title": "Circle/circle intersection is sound and complete", "statement": "The reported points lie on both circles; if the circles have common points and distinct centres, they are reported.", "quantifier": "all pairs of circles", "why_tests_cant": "continuous domain with tangency cases", "anchors": ["homog2d.hpp: Circle_::intersects(Circle_)"]}
{"id": "C45", "title": "Segment/circle intersection reports every crossing", "statement": "Every point common to a segment and a circle is reported.", "quantifier": "all segments and circles", "why_tests_cant": "needs an end point exactly on the circle with another crossing", "anchors": ["homog2d.hpp: SegVec::intersects(Circle_)"]}
{"id": "C46", "title": "Circle inclusion is consistent", "statement": "If circle c1 isInside c2 then every point inside c1 is inside c2, and isInside is transitive.", "quantifier": "all circles, all points", "why_tests_cant": "universally quantified set inclusion", "anchors": ["homog2d.hpp: Circle_::implC_isInside, LPBase::isInside(Circle_)"]}
{"id": "C47", "title": "A circle object never has a null or negative radius", "statement": "After any history of calls on a Circle object, radius() is positive and not below the threshold.", "quantifier": "all finite histories of constructors and setters, including exceptions", "why_tests_cant": "history property", "anchors": ["homog2d.hpp: Circle_ constructors, Circle_::set, Circle_::radius, thr::doNotCheckRadius"]}
{"id": "C48", "title": "Minimum enclosing circle", "statement": "Circle(container) encloses every point of the container and is the smallest such circle.", "quantifier": "all containers of at least two points", "why_tests_cant": "continuous domain", "anchors": ["homog2d.hpp: Circle_::p_welzl_helper, Circle_::set(container), priv::is_valid_circle"]}
{"id": "C49", "title": "Segments of a polyline", "statement": "nbSegs() is size-1 for open, size for closed polylines (with the documented small cases); getSegs() chains the consecutive points and length() is their sum.", "quantifier": "all lists of points", "why_tests_cant": "unbounded lists", "anchors": ["homog2d.hpp: PolylineBase::nbSegs, getSegs, length, size"]}
{"id": "C50", "title": "Cached polyline attributes are never stale", "statement": "After any history of operations, length(), area(), centroid() and isSimple() return the values recomputed from the current points.", "quantifier": "all finite histories of constructors, set, translate, moveTo, rotate, minimize and attribute queries", "why_tests_cant": "history property", "anchors": ["homog2d.hpp: PolylineBase::_attribs, PolyAttribs, PolylineBase::translate, moveTo, set, rotate"]}
{"id": "C51", "title": "Polygon area is a geometric invariant", "statement": "area() is unchanged by translation, reversal and change of starting point, is multiplied by the absolute value of the determinant under an affine map that keeps the polygon simple, and is non-negative: it is the absolute value of the sum of the signed triangles of a fan around any point (0 if the polygon is not simple).", "quantifier": "all closed polylines whose sides are at least nullDistance long (translation: and whose sides are outside the sign-fix zone of C04)", "why_tests_cant": "unbounded lists, continuous domain", "anchors": ["homog2d.hpp: PolylineBase::area, PolylineBase::p_getSignedArea"]}
{"id": "C52", "title": "Polygon centroid moves with the polygon", "statement": "centroid() of a translated polygon is the translated centroid; it is unchanged by a change of starting point and by reversal; it commutes with affine maps that keep the polygon simple; it is the barycenter of the signed triangles of a fan around any point.", "quantifier": "all simple polygons with non-zero area, sides at least nullDistance long (translation: and outside the sign-fix zone of C04)", "why_tests_cant": "unbounded lists", "anchors": ["homog2d.hpp: PolylineBase::centroid"]}
{"id": "C53", "title": "Polyline equality identifies equal shapes", "statement": "Two closed polylines with the same vertices up to a cyclic shift and/or reversal compare equal; open ones compare equal up to reversal.", "quantifier": "all polylines, all shifts", "why_tests_cant": "unbounded lists and shifts", "anchors": ["homog2d.hpp: PolylineBase::operator==, PolylineBase::p_normalizePoly"]}
{"id": "C54", "title": "Comparing polylines does not change them", "statement": "Evaluating a==b leaves the order of points returned by a.getPts() unchanged.", "quantifier": "all polylines", "why_tests_cant": "tests compare results, not the state after comparison", "anchors": ["homog2d.hpp: PolylineBase::operator==, PolylineBase::p_normalizePoly"]}
{"id": "C55", "title": "Convexity does not depend on orientation", "statement": "isConvex() gives the same answer for a polygon and for its reversal.", "quantifier": "all closed polylines", "why_tests_cant": "only collinear vertices break it", "anchors": ["homog2d.hpp: PolylineBase::isConvex"]}
{"id": "C56", "title": "Bounding box of a polyline", "statement": "getBB() contains every vertex and is the smallest such rectangle.", "quantifier": "all polylines with non-degenerate extent", "why_tests_cant": "unbounded lists", "anchors": ["homog2d.hpp: PolylineBase::getBB, getBB_Points"]}
{"id": "C57", "title": "Point in polygon", "statement": "A point strictly inside a simple polygon is reported inside, a point outside is reported outside.", "quantifier": "all simple polygons, all points", "why_tests_cant": "continuous domain; failing points are on prolongations of edges", "anchors": ["homog2d.hpp: LPBase::impl_isInsidePoly"]}
{"id": "C58", "title": "Convex hull", "statement": "convexHull returns a convex polygon made of input points that contains all of them.", "quantifier": "all sets of at least four points", "why_tests_cant": "unbounded lists; failing sets have collinear points with the pivot", "anchors": ["homog2d.hpp: convexHull, chull::getPivotPoint, chull::orientation"]}
{"id": "C59", "title": "Closest points of two polylines", "statement": "getClosestPoints returns two vertices realising the minimum distance over all pairs.", "quantifier": "all pairs of non-empty polylines", "why_tests_cant": "unbounded lists", "anchors": ["homog2d.hpp: getClosestPoints, ClosestPoints"]}
{"id": "C60", "title": "Nearest and farthest point", "statement": "findNearestPoint returns the index of a point at minimum distance from the query, findFarthestPoint at maximum distance.", "quantifier": "all containers with at least two points, all queries", "why_tests_cant": "unbounded lists; ties and coincident points", "anchors": ["homog2d.hpp: findNearestPoint, findFarthestPoint, findNearestFarthestPoint"]}
{"id": "C61", "title": "Bounding box of two objects is symmetric", "statement": "getBB(a,b) and getBB(b,a) give the same result, or both throw.", "quantifier": "all pairs of objects including empty polylines", "why_tests_cant": "typo in a branch only reachable with an empty polyline as second argument", "anchors": ["homog2d.hpp: getBB(T1,T2), ppair::getPointPair"]}
{"id": "C62", "title": "Ellipse parameters survive the conic representation", "statement": "An ellipse built from centre, half-axes and angle reports the same centre, half-axes and angle.", "quantifier": "all centres, all a>=b>0, all angles", "why_tests_cant": "continuous domain; the vertical axis is a measure-zero case", "anchors": ["homog2d.hpp: Ellipse_::p_init, Ellipse_::p_computeParams"]}
{"id": "C63", "title": "Homography image of an ellipse", "statement": "A point p is on the conic of an ellipse if and only if H*p is on the conic of H*ellipse.", "quantifier": "all invertible homographies, all ellipses, all points", "why_tests_cant": "continuous domain", "anchors": ["homog2d.hpp: operator*(Homogr_,Ellipse_)"]}
{"id": "C64", "title": "Drawing parameter defaults", "statement": "After any history of set*/setDefault/resetDefault calls, a default-constructed DrawParams equals the values at the last setDefault (or the factory ones after resetDefault), the marker size is odd and the point style valid.", "quantifier": "all finite histories", "why_tests_cant": "history property", "anchors": ["homog2d.hpp: img::DrawParams, img::DrawParams::Dp_values"]}
{"id": "C65", "title": "SVG path parsing", "statement": "Parsing the textual form of a list of absolute moveto/lineto commands gives back the list of points, with the closed flag set exactly when the path ends with Z; and the object stored is the polyline with these points, open or closed accordingly.", "quantifier": "all lists of points with decimal coordinates, any spaces and commas as separators, consecutive points (and first and last) not equal for the library", "why_tests_cant": "unbounded strings", "anchors": ["homog2d.hpp: svg::svgp::parsePath(), getNextElem(), getCommand(), generateNewPoint(), Visitor::VisitExit()"]}
{"id": "C66", "title": "Removing consecutive duplicates", "statement": "After duplicate removal no two consecutive points of the resulting polyline compare equal.", "quantifier": "all point lists", "why_tests_cant": "needs runs of points spaced around the tolerance", "anchors": ["homog2d.hpp: svg::purgeSetDupes"]}
{"id": "C67", "title": "Segment/line intersection is sound and complete", "statement": "If a segment intersects a line at a reported point, that point is on the line, on the supporting line of the segment and within nullDistance/2 of the segment; a common point of a segment and a non-parallel line is reported.", "quantifier": "all lines, all segments whose direction is outside the sign-fix zone (exactly axis-parallel, or not within nullDenom of it; the zone itself is the subject of C04)", "why_tests_cant": "continuous domain with tolerance branches", "anchors": ["homog2d.hpp: SegVec::intersects(Line2d_)"]}
{"id": "C68", "title": "Oriented angle between two oriented segments", "statement": "getAngle(s1,s2) of two oriented segments is the unique angle t in ]-PI,PI] such that rotating the direction of s1 by t gives the direction of s2.", "quantifier": "all pairs of oriented segments with distinct ends", "why_tests_cant": "continuous domain, four quadrants of atan2", "anchors": ["homog2d.hpp: getAngle(OSegment,OSegment), SegVec::getAngle"]}
{"id": "C69", "title": "Orthogonal points of a segment", "statement": "getOrthogPts returns four points forming with the segment two squares: each at the length of the segment from its end point, in the orthogonal direction, pairwise symmetric, in cyclic order.", "quantifier": "all segments", "why_tests_cant": "continuous domain", "anchors": ["homog2d.hpp: SegVec::getOrthogPts"]}
{"id": "C70", "title": "Segment/circle intersection is exact away from the ends", "statement": "When neither end of the segment is within nullDistance of the circle, the reported points are exactly the points common to the segment and the circle.", "quantifier": "all circles; all segments outside the sign-fix zone of C04 whose ends are at least nullDistance from the circle; all points", "why_tests_cant": "four label combinations over a continuous domain; existing tests use axis-parallel segments", "anchors": ["homog2d.hpp: SegVec::intersects(Circle_), detail::getPtLabel"]}
{"id": "C71", "title": "The random minimum enclosing circle is the minimum enclosing circle", "statement": "Whenever Circle(container) returns on a container of at least 4 points, the circle encloses all the points, no enclosing circle is smaller, and the radius does not depend on the random numbers drawn.", "quantifier": "all containers of any size from 4 whose pairs are outside the sign-fix zone, all sequences returned by std::rand()", "why_tests_cant": "unbounded recursion, random choices, in-place swaps of the vector", "anchors": ["homog2d.hpp: Circle_::p_WelzlHelper, Circle_::p_min_circle_trivial, Circle_::set(container)"]}
{"id": "C72", "title": "Radius along checked histories", "statement": "After any history of set(center,radius), moveTo, translate, set from 2 or 3 points and from containers that do not throw, the radius is at least half of nullDistance and the radius check is still enabled.", "quantifier": "all finite histories of those calls, including calls that throw", "why_tests_cant": "history property over a global flag", "anchors": ["homog2d.hpp: Circle_::set, Circle_::translate, Circle_::moveTo, thr::doNotCheckRadius"]}
{"id": "C73", "title": "Union of touching rectangles", "statement": "unionArea of two rectangles whose closed regions meet returns a closed polygon whose area is A1+A2-Aint.", "quantifier": "all pairs of rectangles that share at least one point, including a part of an edge or a corner only", "why_tests_cant": "the unit tests have no pair sharing an edge without a common interior; the failure is an out-of-bounds read", "anchors": ["homog2d.hpp: FRect_::unionArea, priv::runion::parseTable, priv::runion::moveToNextCell"]}
{"id": "C74", "title": "Rectangle containment is strict set inclusion", "statement": "r.isInside(o) is true exactly when every point of the closed rectangle r is strictly inside o; it is asymmetric and transitive; a point isInside(r) exactly when it is in the open rectangle.", "quantifier": "all pairs and triples of rectangles, all points", "why_tests_cant": "continuous domain; only the four corners are tested by the code", "anchors": ["homog2d.hpp: FRect_::isInside(FRect), LPBase::isInside(FRect), detail::ptIsInside"]}
{"id": "C75", "title": "Extended rectangle and diagonals", "statement": "getExtended keeps the center and triples width and height; the two diagonals have the center of the rectangle as middle, equal lengths, and satisfy Pythagoras with width and height.", "quantifier": "all rectangles with sides of at least nullOrthogDistance and a diagonal of at least nullDistance", "why_tests_cant": "continuous domain", "anchors": ["homog2d.hpp: FRect_::getExtended, FRect_::getDiagonals"]}
{"id": "C76", "title": "Polyline equality on polygons without spikes", "statement": "Two closed polylines that are the same polygon up to a cyclic shift and a reversal compare equal, and an open polyline compares equal to its reversal; conversely, polylines that compare equal have the same points one by one, up to nullDistance, in some order of the same polygon.", "quantifier": "closed: all polygons of at least 3 pairwise different vertices without spike (no vertex where both sides leave in the same direction); open: all polylines with different ends; converse: all polylines of at least 2 points", "why_tests_cant": "unbounded lists and shifts; C53 shows that the restriction is needed", "anchors": ["homog2d.hpp: PolylineBase::operator==, PolylineBase::p_normalizePoly"]}
{"id": "C77", "title": "Convexity is decided by the turns", "statement": "A closed polyline of more than 3 points is convex exactly if it is simple and all its turns are strictly positive or all are not positive; without three collinear consecutive vertices, the answer is the same for every starting point and for both orientations.", "quantifier": "all closed polylines of at least 3 points; invariance: sides at least nullDistance long, no collinear consecutive vertices (C55 shows that this is needed)", "why_tests_cant": "unbounded lists; only collinear vertices break it", "anchors": ["homog2d.hpp: PolylineBase::isConvex"]}
{"id": "C78", "title": "isSimple: meaning and invariance", "statement": "isSimple() is false only if two non-adjacent sides have points within nullDistance/2 of a common point of their lines, is false whenever two non-adjacent sides cross, never throws, and does not depend on the starting point, the orientation or a translation.", "quantifier": "all closed polylines whose sides are at least nullDistance long and outside the sign-fix zone of C04; completeness for sides whose lines make an angle of at least nullAngleValue and without nearly common ends", "why_tests_cant": "continuous domain, unbounded lists; the double loop has special cases for the first and the last side", "anchors": ["homog2d.hpp: PolylineBase::isSimple"]}
{"id": "C79", "title": "Extreme points", "statement": "getBmPoint, getTmPoint, getLmPoint and getRmPoint give a point whose coordinate is extreme, with the smallest other coordinate among those that reach it, and the index of its first occurrence.", "quantifier": "all non-empty containers of points", "why_tests_cant": "tie-breaks depend on the order of the points", "anchors": ["homog2d.hpp: getBmPoint_helper, getTmPoint, getLmPoint, getRmPoint, getExtremePoint"]}
{"id": "C80", "title": "Regular convex polygon", "statement": "set(rad,n) builds n points at angles 2*pi*i/n on the circle of the given radius, and returns the common length of its sides and the common distance of the middles of the sides to the origin; n<3 or rad<=0 is refused.", "quantifier": "all n >= 3, all radii such that the side, the inner radius and sin(pi/n) are above the thresholds", "why_tests_cant": "transcendental functions, all n", "anchors": ["homog2d.hpp: PolylineBase::set(FPT,size_t)"]}
{"id": "C81", "title": "Parallelogram from three points", "statement": "setParallelogram(p1,p2,p3) gives p1, p2, p3 and the fourth point p1+p3-p2; it gives nothing if p1 or p3 coincides with p2.", "quantifier": "all points with p1p2 and p3p2 of sufficient length, outside the sign-fix zone of C04, and at an angle of at least nullAngleValue", "why_tests_cant": "continuous domain; computed by intersection of parallel lines", "anchors": ["homog2d.hpp: PolylineBase::setParallelogram"]}
{"id": "C82", "title": "Nearest and farthest point, points equal to the query left out", "statement": "Among the points at nullDistance or more from the query, findNearestPoint gives the first one at minimum distance; findFarthestPoint gives the first one at maximum distance among all points; findNearestFarthestPoint gives the same two indexes; less than two points throws.", "quantifier": "all containers of at least two points; nearest: one of the first two points is not equal to the query; farthest: some point is not equal to the query (C60 shows that this is needed)", "why_tests_cant": "unbounded lists; ties and coincident points", "anchors": ["homog2d.hpp: priv::findPoint, findNearestPoint, findFarthestPoint, findNearestFarthestPoint"]}
{"id": "C83", "title": "Common bounding box of two objects", "statement": "getBB(a,b) and getBB(b,a) are the same; a result is the smallest rectangle that contains both objects; it is defined if each of the objects has a point pair and the rectangle is not too small.", "quantifier": "all pairs of points, segments, circles, rectangles and non-empty polylines (C61 shows the empty ones)", "why_tests_cant": "continuous domain, all pairs of types", "anchors": ["homog2d.hpp: getBB(T1,T2), ppair::getPointPair, getMinMax, priv::getBB_Points"]}
{"id": "C84", "title": "Bounding box of a container", "statement": "The bounding box of a container of points, segments, rectangles or variants is the smallest rectangle that contains all the elements; an empty container throws.", "quantifier": "all containers; for variants: all elements have a point pair (C85 shows lines)", "why_tests_cant": "unbounded lists", "anchors": ["homog2d.hpp: getBB(T), priv::getBB_Points, priv::getBB_Segments, priv::getBB_FRect, priv::getBB_CommonType"]}
{"id": "C85", "title": "Lines do not contribute to the bounding box of variants", "statement": "The lines held in a container of variants add no point to its bounding box (see the note in the code).", "quantifier": "all containers of variants", "why_tests_cant": "needs a container that begins with a line, and far from the origin", "anchors": ["homog2d.hpp: priv::getBB_CommonType"]}
{"id": "C86", "title": "Removing duplicates keeps one point of each run", "statement": "The result is the list of the points of the runs of equal points; the last point is always kept, and no point is added.", "quantifier": "all non-empty lists in which two points are equal or at least nullDistance apart (C66 shows that this is needed)", "why_tests_cant": "unbounded lists", "anchors": ["homog2d.hpp: svg::priv::purgeSetDupes"]}
{"id": "C87", "title": "Ellipse: centre, half-axes, area and angle are recovered", "statement": "An ellipse built from centre, half-axes and angle reports the same centre, half-axes and area pi*a*b; the reported angle describes the same set, and is the given one in (-pi/2,pi/2); giving the half-axes in the other order builds the same ellipse.", "quantifier": "all centres, all a>=b>0 with 4a^2b^2 not below the denominator threshold, all angles for centre, half-axes and area; for the angle: zero, or an xy coefficient not below that threshold (C62 shows that these are needed)", "why_tests_cant": "continuous domain", "anchors": ["homog2d.hpp: Ellipse_::p_init, Ellipse_::p_computeParams, getCenter, getMajMin, angle, area"]}
{"id": "C88", "title": "Ellipse: bounding box is the smallest one", "statement": "getBB() of an ellipse is the smallest axis-parallel rectangle that holds every point of the ellipse and of its inside.", "quantifier": "all ellipses with 4a^2b^2 and the xy coefficient not below the denominator threshold (or angle 0, or a circle), and 2b not below the orthogonal distance threshold", "why_tests_cant": "continuous domain; minimality quantifies over all rectangles", "anchors": ["homog2d.hpp: Ellipse_::getBB"]}
{"id": "C89", "title": "Ellipse: point inside test", "statement": "A point is reported inside an ellipse exactly if ((dx cos t + dy sin t)/a)^2 + ((dy cos t - dx sin t)/b)^2 < 1.", "quantifier": "all points, all ellipses as in C88", "why_tests_cant": "continuous domain", "anchors": ["homog2d.hpp: Ellipse_::pointIsInside, LPBase::isInside"]}
{"id": "C90", "title": "Ellipse: translations and moves", "statement": "After any sequence of translate and moveTo calls, the matrix of the ellipse describes the ellipse with the same half-axes and angle and the centre moved by the same sequence.", "quantifier": "all finite sequences, all ellipses as in C88", "why_tests_cant": "history property: each step recomputes the parameters from the matrix", "anchors": ["homog2d.hpp: Ellipse_::translate, Ellipse_::moveTo"]}
{"id": "C91", "title": "Ellipse from a circle", "statement": "An ellipse built from a circle has its centre, both half-axes equal to the radius, angle 0, the area and perimeter of the circle, and its matrix is negative, zero or positive where the circle's distance test says inside, on, outside; isCircle(thres) holds if a^2-b^2 < thres and implies (a^2-b^2)^2 < 2 thres^2.", "quantifier": "all circles with 4r^4 not below the denominator threshold; all ellipses and thresholds", "why_tests_cant": "continuous domain", "anchors": ["homog2d.hpp: Ellipse_::Ellipse_(Circle_), isCircle, length"]}
{"id": "C92", "title": "Comparison of ellipses does not change them", "statement": "Comparing ellipses with == does not throw, does not change what they report, and gives true for two ellipses with the same matrix.", "quantifier": "all ellipses", "why_tests_cant": "needs particular positions: ellipse through or around the origin, comparison before a translation", "anchors": ["homog2d.hpp: Ellipse_::operator=="]}
{"id": "C93", "title": "Comparison of ellipses: what it keeps and what true means", "statement": "The normalisation made by == divides the form by its value at the origin; if that value is positive and large enough the centre and half-axes are kept; an ellipse equals itself; the answer true bounds the difference of both normalised forms at every point.", "quantifier": "all ellipses on which == does not throw; for the attributes, origin outside (C92 shows that this is needed)", "why_tests_cant": "continuous domain", "anchors": ["homog2d.hpp: Ellipse_::operator==, Matrix_::p_normalize"]}
{"id": "C94", "title": "Ellipse: bounds of the perimeter", "statement": "length() of an ellipse is at least pi(a+b), lies between 2 pi b and 2 pi a, and is 2 pi r for equal half-axes.", "quantifier": "all ellipses with 4a^2b^2 not below the denominator threshold", "why_tests_cant": "continuous domain", "anchors": ["homog2d.hpp: Ellipse_::length"]}
{"id": "C95", "title": "Ellipse with a vertical major axis", "statement": "getBB() holds the ellipse, pointIsInside() is exact and translate(0,0) keeps the curve, also for a vertical major axis.", "quantifier": "all ellipses of angle pi/2", "why_tests_cant": "measure-zero case", "anchors": ["homog2d.hpp: Ellipse_::p_computeParams"]}
{"id": "C96", "title": "Points: normalisation and moves keep the point", "statement": "Setting a point from three values throws exactly if all three are below their thresholds, and otherwise stores a multiple of the triple with a non-negative first value; after any sequence of set, translate and moveTo calls, getX/getY give the exact point.", "quantifier": "all values, all finite sequences of calls", "why_tests_cant": "history property over a continuous domain", "anchors": ["homog2d.hpp: LPBase::impl_normalize, LPBase::set, LPBase::translate, LPBase::moveTo"]}
{"id": "C97", "title": "Side of a line", "statement": "side() is 0 exactly for the points nearer to the line than the distance threshold; it is constant along a segment whose ends are on the same side; a segment whose ends are on opposite sides meets the line; the positive side is the one the normal points to.", "quantifier": "all points, all lines with a unit normal", "why_tests_cant": "continuous domain", "anchors": ["homog2d.hpp: side()"]}
{"id": "C98", "title": "Drawing parameters: defaults, isolation, ranges, setters", "statement": "After any history of constructions, setter calls, setDefault and resetDefault: a new object has the values stored by the last setDefault (factory values if none, or after resetDefault); an object's values are its initial values with its own setter calls applied in order, whatever happens to the others or to the default; every stored value stays in its range; each setter changes its own field only.", "quantifier": "all finite histories of calls", "why_tests_cant": "history property over an unbounded number of objects", "anchors": ["homog2d.hpp: img::DrawParams, img::DrawParams::Dp_values"]}
{"id": "C99", "title": "Point style cycle and attribute string", "statement": "nextPointStyle() goes through all the styles with period 6 and never leaves the enumeration; the 'holds fill' test is true exactly if the attribute string contains 'fill='; the printed attribute string is empty exactly if the attribute is.", "quantifier": "all parameter values, all strings", "why_tests_cant": "unbounded strings", "anchors": ["homog2d.hpp: img::DrawParams::Dp_values::nextPointStyle, img::DrawParams::holdsFill, img::DrawParams::getAttrString"]}
{"id": "C100", "title": "Convex hull, points not aligned with the pivot", "statement": "The hull polygon is made of distinct input points, starts at the lowest-leftmost point, has every input point on the left of (or on) each edge, and every half-plane holding its vertices holds all the input points; no undefined access to the stacks. For any distinct points at all, the scan ends and returns at least three input points.", "quantifier": "all lists of at least four distinct points, no two of them aligned with the lowest one, any three aligned or spanning at least 1e-15", "why_tests_cant": "unbounded lists over a continuous domain", "anchors": ["homog2d.hpp: convexHull, chull::getPivotPoint, chull::sortPoints, chull::orientation"]}
{"id": "C101", "title": "Convex hull: order of the input, idempotence", "statement": "The hull does not depend on the order of the input points (same vertices, same start); the hull of a hull is the hull itself.", "quantifier": "all lists of at least four distinct points, no two of them aligned with the lowest one", "why_tests_cant": "all permutations of unbounded lists", "anchors": ["homog2d.hpp: convexHull"]}
{"id": "C102", "title": "Axes of an ellipse", "statement": "getAxisLines() returns two perpendicular lines through the centre; the ellipse is symmetric by each of them; the points of the ellipse on the first (second) one are at the distance of the major (minor) half-axis from the centre.", "quantifier": "all centres, half-axes and angles; product of the half-axes above the null-denominator threshold, axes parallel to the coordinate axes or away from them by the thresholds", "why_tests_cant": "continuous domain of ellipses; symmetry is about all points of the plane", "anchors": ["homog2d.hpp: Ellipse_::getAxisLines"]}
{"id": "C103", "title": "Oriented bounding box of an ellipse", "statement": "getOBB() returns a closed polygon of four points: a rectangle centred on the centre of the ellipse, of sides twice the half-axes, that holds every point of the ellipse, each side being touched by the ellipse at its middle.", "quantifier": "all centres, half-axes and angles, as in C102, sides above the null-distance threshold", "why_tests_cant": "continuous domain of ellipses; inclusion is about all points of the plane", "anchors": ["homog2d.hpp: Ellipse_::getOBB"]}
{"id": "C104", "title": "Even-odd rule", "statement": "The parity of the number of sides met by a segment that goes from a point to the outside of the bounding box is the same whatever that segment; it is even for points outside of the box; two points joined by a segment that meets no side have the same status.", "quantifier": "all closed polygons without null side, simple or not, all points off the sides, all segments that hold no vertex", "why_tests_cant": "unbounded polygons and all directions of the half-line", "anchors": ["homog2d.hpp: LPBase::impl_isInsidePoly"]}
{"id": "C105", "title": "Point in a polygon", "statement": "For a simple polygon, whenever the function answers, the answer is the even-odd rule. It answers if and only if one of the five reference segments has no vertex within nullDistance, and throws otherwise. It answers 'outside' for polygons that are not simple and for points outside of the bounding box.", "quantifier": "all simple polygons with sides above the thresholds, all points at nullDistance at least of the lines of the sides that see each side under a line angle of nullAngleValue at least", "why_tests_cant": "unbounded polygons, continuous domain of points", "anchors": ["homog2d.hpp: LPBase::impl_isInsidePoly, PolylineBase::isInside"]}
{"id": "C106", "title": "Point in a convex polygon", "statement": "For a convex polygon the even-odd rule means: strictly on the left of each side (counter-clockwise order); the function answers 'inside' exactly for these points.", "quantifier": "all counter-clockwise convex polygons with distinct vertices, no vertex on another side's line, points as in C105", "why_tests_cant": "unbounded polygons, continuous domain of points", "anchors": ["homog2d.hpp: LPBase::impl_isInsidePoly"]}
{"id": "C107", "title": "Segment, rectangle, polyline inside a polygon", "statement": "If a segment, a rectangle or a polyline is reported inside a convex polygon, all its points are strictly on the left of all sides; if a segment is reported inside any simple polygon, no side that makes an angle with it meets it and all its points are inside by the even-odd rule.", "quantifier": "all polygons of C105/C106; ends and corners that satisfy the hypotheses of C105; sides at an angle of nullAngleValue at least with the segment for the second clause", "why_tests_cant": "the conclusion is about all points of the object", "anchors": ["homog2d.hpp: SegVec::isInside(PolylineBase), FRect_::isInside(PolylineBase), PolylineBase::isInside(PolylineBase)"]}
{"id": "C108", "title": "SVG paths mean what the SVG recommendation says", "statement": "Parsing any text of a path made of M, L, H, V and Z commands, absolute or relative, with repeated argument groups, gives the subpaths drawn by these commands according to the SVG recommendation (current point, implied lineto), after removal of points equal to the next one.", "quantifier": "all paths that start with a moveto and where each Z is followed by an absolute moveto or by the end; all texts with spaces and commas as separators", "why_tests_cant": "all strings of an infinite language", "anchors": ["homog2d.hpp: svg::svgp::parsePath(), SvgValuesBuffer, generateNewPoint(), purgeSetDupes()"]}
{"id": "C109", "title": "SVG paths: the whole language", "statement": "The same as C108 for every path that starts with a moveto, every text of the SVG grammar, and with a closed flag for each subpath.", "quantifier": "all paths and texts", "why_tests_cant": "all strings of an infinite language", "anchors": ["homog2d.hpp: svg::svgp::parsePath(), getNextElem(), Visitor::VisitExit()"]}
{"id": "C110", "title": "SVG path strings are safe to parse", "statement": "Whatever the string, parsing stops; its behaviour is undefined only when a number, or separators at the end of the string, follow a Z; a string that is accepted holds only characters of numbers, separators and the letters of the five commands.", "quantifier": "all strings", "why_tests_cant": "all strings of characters, valid or not", "anchors": ["homog2d.hpp: svg::svgp::parsePath(), getCommand(), svgPathCommandIsAllowed()"]}
{"id": "C111", "title": "SVG points attribute", "statement": "The points written as x,y pairs separated by one space are read back in order; the import of polygons and polylines then removes the last point exactly when it equals the first one.", "quantifier": "all lists of points with decimal coordinates", "why_tests_cant": "unbounded strings", "anchors": ["homog2d.hpp: svg::svgp::parsePoints(), importSvgPoints(), tokenize()"]}
{"id": "C112", "title": "SVG points attribute: the whole language", "statement": "The points of every attribute value allowed by the SVG grammar are read.", "quantifier": "all strings of the grammar", "why_tests_cant": "unbounded strings", "anchors": ["homog2d.hpp: svg::svgp::parsePoints(), importSvgPoints()"]}
{"id": "C113", "title": "SVG ellipses", "statement": "The import of an ellipse with a transform attribute rotate(a,u,v) gives the ellipse of these half-axes turned by a degrees about its own centre.", "quantifier": "all centres, all half-axes with 0 < ry <= rx, all decimal angles; determinant threshold at most 1", "why_tests_cant": "real parameters", "anchors": ["homog2d.hpp: svg::svgp::getEllipseRotateAttr(), Visitor::VisitExit(), operator*(Homogr_,Ellipse_)"]}
{"id": "C114", "title": "SVG ellipses: any pivot, any half-axes", "statement": "The same as C113 with the rotation about the point (u,v) of the attribute, and also for ry > rx.", "quantifier": "all ellipses and attributes", "why_tests_cant": "real parameters", "anchors": ["homog2d.hpp: Visitor::VisitExit(), Ellipse_ constructor"]}
{"id": "C115", "title": "Homography image of a segment", "statement": "The product of a homography and a segment joins the images of the ends; it throws exactly when these are closer than the distance threshold, and a plain segment comes out ordered. If both ends are on the same side of the line sent to infinity, its points are exactly the images of the points of the segment.", "quantifier": "all matrices, all segments with both ends on the same side of the line sent to infinity, all thresholds", "why_tests_cant": "real matrices; a statement about every point of the segment", "anchors": ["homog2d.hpp: operator*(Homogr_,SegVec) (l.9701)", "homog2d.hpp: operator*(Homogr_,Point2d_)"]}
{"id": "C116", "title": "Homography image of a segment: any segment", "statement": "The same as C115 for every segment, and the image of an oriented segment is a well-formed plain segment.", "quantifier": "all invertible matrices, all segments", "why_tests_cant": "real matrices", "anchors": ["homog2d.hpp: operator*(Homogr_,SegVec) (l.9701)", "homog2d.hpp: SegVec conversion constructor (l.4936)"]}
{"id": "C117", "title": "Homography image of a polyline", "statement": "The product of a homography and a polyline holds the images of the points, in the same order, and its cached values are unset; it throws exactly when two consecutive images are closer than the threshold. Each side is the image of the side. Images follow products of homographies, and the inverse gives the polyline back. For a container of points the result is the list of the images.", "quantifier": "all matrices, all lists of points (for the sides: on one side of the line sent to infinity), all thresholds", "why_tests_cant": "unbounded lists, real matrices", "anchors": ["homog2d.hpp: operator*(Homogr_,PolylineBase) (l.9712)", "homog2d.hpp: operator*(Homogr_,Cont) (l.9805)", "homog2d.hpp: PolylineBase::p_addPoint()"]}
{"id": "C118", "title": "Homography image of a polygon: turns, convexity, area", "statement": "On one side of the line sent to infinity a homography multiplies the sign of all turns by one common sign, so that convexity is kept both ways; an affine map multiplies the area by the absolute determinant and moves the centroid along; the image of a rectangle has the images of its four corners and, for an affine map, the area |det| times width times height.", "quantifier": "all invertible matrices, all simple polygons with simple image on one side of the line sent to infinity without three aligned consecutive vertices", "why_tests_cant": "unbounded lists, real matrices", "anchors": ["homog2d.hpp: operator*(Homogr_,PolylineBase) (l.9712)", "homog2d.hpp: operator*(Homogr_,FRect_) (l.9724)", "homog2d.hpp: PolylineBase::isConvex(), area(), centroid()"]}
{"id": "C119", "title": "Homography image of a closed polyline is a valid closed polyline", "statement": "If the product of an invertible homography and a valid closed polyline does not throw, its result is a polyline that the setter accepts and whose segments can be read.", "quantifier": "all invertible matrices, all valid closed polylines", "why_tests_cant": "real matrices", "anchors": ["homog2d.hpp: operator*(Homogr_,PolylineBase) (l.9712)", "homog2d.hpp: PolylineBase::p_addPoint() (l.6279)"]}
{"id": "C120", "title": "Offset polygon: vertices", "statement": "Each vertex of the offset polygon is at the signed distance dist of the two sides next to a vertex of the polygon in normal (clockwise) order; the call throws exactly when two consecutive vertices of the result are closer than the threshold. A null distance, fewer than 3 points, an open polyline or a polygon that is not simple give an empty polyline, and the points are kept.", "quantifier": "all simple polygons whose sides are outside the sign-fix zone of C04 and whose consecutive sides make an angle above the threshold, all distances above the threshold, all thresholds; without angle splitting, or inwards", "why_tests_cant": "unbounded lists, real distances", "anchors": ["homog2d.hpp: PolylineBase::getOffsetPoly() (l.6674)", "homog2d.hpp: SegVec::getParallelSegs()", "homog2d.hpp: PolylineBase::p_normalizePoly()"]}
{"id": "C121", "title": "Offset polygon: outward offset of a convex polygon", "statement": "The offset by d > 0 of a strictly convex polygon, given in either order, always succeeds. It has as many vertices, is clockwise and convex, every point of the polygon is strictly inside each of its sides, and every vertex is at least d away from every point of the polygon.", "quantifier": "all simple strictly convex polygons as in C120, all d at least the distance threshold", "why_tests_cant": "unbounded lists; a statement about every point of the polygon", "anchors": ["homog2d.hpp: PolylineBase::getOffsetPoly() (l.6674)"]}
{"id": "C122", "title": "Offset polygon: documented behaviour on any polygon", "statement": "On failure, for whatever reason, the result is an empty polyline; for dist < 0 the result is inside the source polygon.", "quantifier": "all simple polygons, all distances", "why_tests_cant": "real distances", "anchors": ["homog2d.hpp: PolylineBase::getOffsetPoly() documentation (l.6667)"]}
{"id": "C123", "title": "Bisector lines of a polyline", "statement": "There is one line for each corner (all vertices of a closed polyline, all but the ends of an open one). It goes through the vertex, and the reflection in it sends the ray to the previous vertex onto the ray to the next one, so that its points are equally far from both sides. Fewer than 3 points: exception.", "quantifier": "all polylines with sides longer than the threshold, sides and bisectors outside the sign-fix zone of C04, all thresholds", "why_tests_cant": "unbounded lists, real coordinates", "anchors": ["homog2d.hpp: getBisectorLines() (l.9984)", "homog2d.hpp: Line2d_::getRotatedLine()", "homog2d.hpp: SegVec::getAngle()"]}
{"id": "C124", "title": "Distance of parallel lines", "statement": "For two lines through points with the same direction, the result is the distance of every point of one line to the other, the same in both orders. If the lines are not parallel there is an exception.", "quantifier": "all pairs of parallel joins outside the sign-fix zone of C04, all thresholds", "why_tests_cant": "real coordinates; a statement about every point of the lines", "anchors": ["homog2d.hpp: getParallelDistance() (l.10972)"]}
{"id": "C125", "title": "Distance of parallel lines: always a number", "statement": "For any two lines that isParallelTo() accepts the result is a number.", "quantifier": "all lines", "why_tests_cant": "real coordinates", "anchors": ["homog2d.hpp: getParallelDistance() (l.10972)"]}
{"id": "C126", "title": "Circle: area, length, translation", "statement": "For every n >= 3, area and length of a circle lie between those of the regular n-gon inscribed in it and of the one circumscribed to it. translate moves exactly the points of the edge, and moveTo puts the centre where asked and is a translation.", "quantifier": "all circles, all n >= 3, all vectors", "why_tests_cant": "a bound for every n; real coordinates", "anchors": ["homog2d.hpp: CircleBase area()/length() (l.3307)", "homog2d.hpp: translate/moveTo (l.3404)"]}
{"id": "C127", "title": "Rectangle: area, length, corners", "statement": "area() and length() are the area (shoelace formula) and the perimeter of the polygon of the four points of get4Pts(), which are exactly the extreme points of the rectangle.", "quantifier": "all rectangles", "why_tests_cant": "real coordinates; a statement about every point of the rectangle", "anchors": ["homog2d.hpp: FRect_ height/width/area/length (l.2780)", "homog2d.hpp: FRect_::get4Pts()"]}
{"id": "C128", "title": "Polyline: moveTo", "statement": "moveTo puts the first point where asked, keeps the number of points and all coordinate differences; length, signed area stay, so that the cached values that it does not invalidate are still right. An empty polyline throws.", "quantifier": "all polylines, all targets", "why_tests_cant": "unbounded lists, real coordinates, cached values", "anchors": ["homog2d.hpp: PolylineBase::moveTo() (l.6444)", "homog2d.hpp: PolylineBase::translate() (l.6415)"]}
{"id": "C129", "title": "Points inside: selection of points", "statement": "getPtsInside returns the points strictly inside the circle or the rectangle, in the original order with their multiplicity, and no others.", "quantifier": "all lists of points, circles, rectangles", "why_tests_cant": "unbounded lists, real coordinates", "anchors": ["homog2d.hpp: getPtsInside() (l.11216)"]}
{"id": "C130", "title": "Line against rectangle", "statement": "The points returned are exactly the points of the line on the border of the rectangle, without duplicates and at most two. If the line contains a side, they are the two ends of that side.", "quantifier": "all rectangles with sides of at least the threshold, all unit lines that are exactly parallel to an axis or at nullAngleValue from both, and that pass each corner exactly or at nullDistance; all thresholds", "why_tests_cant": "real coordinates; a statement about every point of the border; stops after two points and drops duplicates at corners", "anchors": ["homog2d.hpp: LPBase::impl_intersectsFRect() (l.9526)", "homog2d.hpp: segment/line intersection (l.8248)"]}
{"id": "C131", "title": "Line against rectangle: crossing the interior", "statement": "A line through a point strictly inside the rectangle has at least one intersection point with it.", "quantifier": "all rectangles and lines", "why_tests_cant": "real coordinates", "anchors": ["homog2d.hpp: LPBase::impl_intersectsFRect() (l.9526)"]}
{"id": "C132", "title": "Circle against rectangle", "statement": "The points returned are exactly the points of the circle on the border of the rectangle, in strictly increasing order.", "quantifier": "all rectangles with sides of at least the threshold, all circles at nullDistance or more from the corners, all thresholds", "why_tests_cant": "real coordinates; a statement about every point of the border", "anchors": ["homog2d.hpp: FRect_::p_intersects_R_C() (l.3118)"]}
{"id": "C133", "title": "minimize() removes the straight vertices and nothing else", "statement": "minimize() returns the vertices that are not strictly between their two neighbours, in order (an open polyline keeps its ends). The result has the same length, the same set of points, for a closed one the same signed area about any origin, and turns at each of its vertices.", "quantifier": "all polylines of at least 3 points, open or closed, with sides of at least nullDistance, each vertex exactly straight or turning by nullAngleValue at least; all thresholds", "why_tests_cant": "unbounded lists, runs of any number of removed vertices, real coordinates, a statement about every point of the polyline", "anchors": ["homog2d.hpp: PolylineBase::minimizePL() (l.7318)", "homog2d.hpp: PolylineBase::minimize() (l.6406)"]}
{"id": "C134", "title": "minimize() keeps the shape", "statement": "No vertex of the original polyline is far from the minimized polyline.", "quantifier": "all polylines", "why_tests_cant": "needs a curve of thousands of vertices", "anchors": ["homog2d.hpp: PolylineBase::minimizePL() (l.7318)"]}
{"id": "C135", "title": "Common tangents of two circles", "statement": "getTanSegs returns two segments, whose ends are exactly the contact points of the two external common tangents: ends on the circles, all other points of the lines outside both circles, no other external tangent exists.", "quantifier": "all pairs of circles of positive radius, none inside the other, radii equal or different by nullDistance, centres and contact points not too close nor nearly parallel to an axis; all thresholds with nullDeter <= 1", "why_tests_cant": "real coordinates and trigonometric functions; uniqueness of the tangents", "anchors": ["homog2d.hpp: getTanSegs() (l.10796)", "homog2d.hpp: getRotatedLine (l.8919)", "homog2d.hpp: getParallelSegs (l.5442)"]}
{"id": "C136", "title": "Common tangents: any two different circles", "statement": "getTanSegs returns two tangents or throws, for any two different circles.", "quantifier": "all pairs of different circles", "why_tests_cant": "needs one circle inside the other; the result is then made of NaN values", "anchors": ["homog2d.hpp: getTanSegs() (l.10818)"]}
{"id": "C137", "title": "Circle inside a polygon", "statement": "Circle::isInside(CPolyline) is true exactly when every point of the closed disc is inside the polygon (even-odd rule) and on none of its sides; it answers whenever the test of the centre does.", "quantifier": "all simple closed polygons, convex or not, with sides of at least nullDistance, all circles of radius >= 0, centre clear of the sides and vertices at nullDistance or more from the circle; all thresholds", "why_tests_cant": "a statement about every point of a disc, any number of sides", "anchors": ["homog2d.hpp: Circle_::isInside(PolylineBase) (l.5776)", "homog2d.hpp: PolylineBase::intersects(Circle) (l.6572)"]}
{"id": "C138", "title": "Homographies preserve incidence away from the sign-fix zone", "statement": "A point p lies on a line l if and only if H*p lies on H*l; the image of the line through p and q is the line through H*p and H*q.", "quantifier": "every homography for which the product returns a line, every point, every line whose image is not within nullDenom of horizontal (or exactly horizontal); all thresholds", "why_tests_cant": "quantifies over all lines, points and matrices", "anchors": ["homog2d.hpp: operator*(Homogr_,Line2d_), operator*(Homogr_,Point2d_), detail::product"]}
{"id": "C139", "title": "A line built from two points is the set of points aligned with them", "statement": "Line2d(p,q) contains exactly the points aligned with p and q, is normalised, is returned whenever the points are far enough apart, and the call has no undefined behaviour.", "quantifier": "all pairs of points whose direction is exactly horizontal or not within nullDenom of horizontal; all thresholds", "why_tests_cant": "continuous domain, statement about every point of the line", "anchors": ["homog2d.hpp: operator*(Point2d_,Point2d_), LPBase::impl_normalize (lines)"]}
{"id": "C140", "title": "Line transform uses the current matrix when no silent modification is pending", "statement": "H*line is computed from the current matrix after any history in which no silent modification (set, value, getRaw, transpose, init) is pending at a line product; in particular after any history with none of them after the first line product.", "quantifier": "all finite histories meeting that condition", "why_tests_cant": "history property: tests try a handful of sequences", "anchors": ["homog2d.hpp: Hmatrix_::_hasChanged, Hmatrix_::_hmt, operator*(Homogr_,Line2d_)"]}
{"id": "C141", "title": "Constructed homographies: equality ignores scale", "statement": "Homographies constructed from M and k*M compare equal; comparison is symmetric, including the state in which it leaves its operands.", "quantifier": "all matrices accepted by the constructor, all non-zero k; symmetry for all objects; all thresholds", "why_tests_cant": "infinite family", "anchors": ["homog2d.hpp: Hmatrix_::operator==, Hmatrix_::normalize"]}
{"id": "C142", "title": "inverse() of a singular homography leaves it untouched", "statement": "If the determinant is below the threshold, inverse() throws and the object keeps matrix, flags and cache.", "quantifier": "all objects with a determinant below nullDeter in absolute value", "why_tests_cant": "continuous domain", "anchors": ["homog2d.hpp: Hmatrix_::inverse, Matrix_::inverse"]}
{"id": "C143", "title": "Concurrent line products are safe once the cache is filled", "statement": "Any number of threads evaluating H*line on a shared object whose cache is filled: the object is unchanged and every thread gets the sequential result within 3 of its steps.", "quantifier": "all numbers of threads, all schedules, all lines", "why_tests_cant": "schedule property", "anchors": ["homog2d.hpp: operator*(Homogr_,Line2d_), Hmatrix_::_hmt, Hmatrix_::_hasChanged"]}
{"id": "C144", "title": "Orthogonal and parallel lines through a point, away from the sign-fix zone", "statement": "getOrthogLine(p) passes through p and is orthogonal to the line; getParallelLine(p) passes through p and is parallel; a point is on one of the two lines of getParallelLines(d) exactly when it is at distance |d| of the line.", "quantifier": "all stored lines, all points, all d; for getOrthogLine the line is vertical or not within nullDenom of vertical; all thresholds", "why_tests_cant": "continuous domain with sign normalisation", "anchors": ["homog2d.hpp: priv::getOrthogonalLine_B2, LPBase::getOrthogLine, getParallelLine, getParallelLines"]}
{"id": "C145", "title": "Rotated line away from the sign-fix zone", "statement": "getRotatedLine(p,theta) returns a line, it passes through p, and its normal is the original normal rotated by theta (up to sign).", "quantifier": "all normalised lines, all points on them, all angles whose rotated normal is not in the sign-fix zone; all thresholds with nullDeter <= 1", "why_tests_cant": "continuous domain; composed of three homographies, an inverse and a transpose", "anchors": ["homog2d.hpp: LPBase::getRotatedLine (l.8919)"]}
{"id": "C146", "title": "Point equality is a tolerance relation", "statement": "operator== on points is reflexive, symmetric, and a==b, b==c implies that a and c are closer than 2*nullDistance.", "quantifier": "all triples of points, all thresholds", "why_tests_cant": "continuous domain", "anchors": ["homog2d.hpp: LPBase::impl_op_equal (points)"]}
{"id": "C147", "title": "Collinearity test away from the sign-fix zone", "statement": "areCollinear gives the same answer for the six orders of its arguments, and true exactly when the triangle is thinner than nullDistance.", "quantifier": "all triples of points whose three directions are horizontal or not within nullDenom of horizontal; all thresholds with dblEpsilon < nullDistance", "why_tests_cant": "continuous domain with 6-way case analysis on distances, including ties", "anchors": ["homog2d.hpp: areCollinear, priv::getLargestDistancePoints"]}
{"id": "C148", "title": "Converting an oriented segment with increasing ends to a plain one", "statement": "Segment(OSegment(p,q)) is Segment(p,q).", "quantifier": "all pairs of points p<q, all thresholds", "why_tests_cant": "continuous domain", "anchors": ["homog2d.hpp: SegVec copy-constructor"]}
{"id": "C149", "title": "Segment/circle intersection: reported points are common points", "statement": "Every reported point is within nullDistance of the circle and within nullDistance/2 of the segment.", "quantifier": "all segments with a usable length and direction, all circles of radius >= 0, all thresholds", "why_tests_cant": "continuous domain", "anchors": ["homog2d.hpp: SegVec::intersects(Circle_)"]}
{"id": "C150", "title": "Minimum enclosing circle, any number of points but 3", "statement": "Circle(container) encloses every point and is the smallest such circle.", "quantifier": "all containers of a size other than 3 for which the constructor returns, all sequences of random numbers, lines through pairs of points outside the sign-fix zone; all thresholds", "why_tests_cant": "unbounded size, recursion over random swaps", "anchors": ["homog2d.hpp: Circle_::p_welzl_helper, Circle_::set(container)"]}
{"id": "C151", "title": "Cached polyline attributes are not stale away from the moved centroid", "statement": "length() is never stale. area(), isSimple(), isConvex() are not stale while the sides keep a usable length and direction. centroid() is not stale either if the history has no translate/moveTo.", "quantifier": "all finite histories of constructors, set, translate, moveTo, rotate, minimize and attribute queries, meeting the stated conditions; all thresholds", "why_tests_cant": "history property", "anchors": ["homog2d.hpp: PolylineBase::_attribs, PolyAttribs, PolylineBase::translate, moveTo, set, rotate"]}
{"id": "C152", "title": "Comparing polylines keeps the shapes", "statement": "After a==b, the points of a closed operand are a cyclic shift or reversed cyclic shift of the original ones, those of an open operand are the original ones or reversed.", "quantifier": "all polylines, all thresholds", "why_tests_cant": "unbounded lists", "anchors": ["homog2d.hpp: PolylineBase::operator==, PolylineBase::p_normalizePoly"]}
{"id": "C153", "title": "Homography computed from four pairs of points", "statement": "buildFrom4Points throws unless both lists have four points. The matrix it returns sends each source point to its destination. If an invertible matrix with a non null last element sends the source points to the destinations, it is the returned one, divided by that element.", "quantifier": "all quadruples of source points and of destination points with no three aligned, all prior states of the object", "why_tests_cant": "continuous domain of 16 coordinates, uniqueness of the solution", "anchors": ["homog2d.hpp: detail::buildFrom4Points_Eigen, Hmatrix_::buildFrom4Points"]}
{"id": "C154", "title": "Every homography is recovered from four pairs of points", "statement": "If an invertible matrix sends four source points to four destination points, no three aligned in either set, then buildFrom4Points returns such a matrix. False: a matrix that sends the origin to infinity has a null last element, which the code fixes to 1, so that the linear system is singular.", "quantifier": "all quadruples of source points and of destination points with no three aligned", "why_tests_cant": "the failing set has measure zero: random tests never meet it", "anchors": ["homog2d.hpp: detail::buildFrom4Points_Eigen"]}
{"id": "C155", "title": "Polyline inside a polygon", "statement": "isInside answers true exactly when every point of every side of the polyline is inside the polygon (even-odd rule) and on none of its sides. An empty polyline is inside nothing.", "quantifier": "all polylines of two points or more, open or closed, all simple polygons, convex or not, such that their sides are long enough, make an angle of at least nullAngleValue with each other and have no near miss (they meet, or are nullDistance apart), and the vertices are clear of the polygon's sides; all thresholds", "why_tests_cant": "continuous domain, unbounded number of sides; a polyline with all its vertices inside can cross a non convex polygon", "anchors": ["homog2d.hpp: PolylineBase::isInside, PolylineBase::intersects, LPBase::impl_isInsidePoly"]}
{"id": "C156", "title": "Polyline inside a circle or a rectangle", "statement": "isInside answers true exactly when every point of every side is strictly inside the circle, or the rectangle, although only the vertices are tested. An empty polyline is inside nothing.", "quantifier": "all polylines of two points or more, open or closed, all circles, all rectangles", "why_tests_cant": "continuous domain, unbounded number of sides", "anchors": ["homog2d.hpp: PolylineBase::isInside"]}
{"id": "C157", "title": "Numbers written in the SVG text read back to six digits", "statement": "A coordinate written by a drawing function and read back by the import functions is the same number up to a relative error of 5e-6, and exactly the same if six significant digits are enough. Integers are written and read exactly. The text of a coordinate is not empty and holds only digits, signs, a dot and the letter e: neither separators nor markup.", "quantifier": "all finite values of a coordinate (rational numbers), all integers", "why_tests_cant": "unbounded domain of numbers, three output formats (integer part, leading zeros, exponent), rounding that carries to the next power of ten", "anchors": ["homog2d.hpp: Circle_::draw, Ellipse_::draw, FRect_::draw, PolylineBase::draw, svgp::parsePoints, svgp::getAttribValue"]}
{"id": "C158", "title": "Coordinates survive writing and reading", "statement": "A number written in the SVG text and read back is the same number. False: the stream keeps its default precision of six digits, and 1234567 reads back as 1234570.", "quantifier": "all finite values of a coordinate", "why_tests_cant": "needs numbers of more than six digits, absent from the tests", "anchors": ["homog2d.hpp: PolylineBase::draw, Circle_::draw"]}
{"id": "C159", "title": "The SVG file written is well-formed XML and holds what was drawn", "statement": "Whatever is drawn, with whatever parameters (points, indexes and angles shown or not, user attributes), the file written is well-formed: tags and groups balanced, no attribute given twice, no markup inside values. Read by an independent XML reader it is a root element of the size of the image with exactly the elements of the drawings, in order, with their attributes. At most one fill attribute, 'none' if the user gives no attribute. The size is read back by getImgSize.", "quantifier": "all sequences of drawings (circles, ellipses, rectangles, segments, oriented segments, points, polylines, texts) of any length, all parameters, all well-formed user attributes that are not the ones written by the functions, all texts without markup", "why_tests_cant": "unbounded sequences of drawings, combinations of flags", "anchors": ["homog2d.hpp: Image<SvgImage>::write, Circle_::draw, Ellipse_::draw, FRect_::draw, SegVec::draw, PolylineBase::draw, LPBase::impl_draw_LP, drawText, getImgSize"]}
{"id": "C160", "title": "What is drawn is read back by the SVG import", "statement": "Importing the file written by drawing a list of objects gives the same objects, in the same order: circles, rectangles, segments, open and closed polylines, ellipses (same quadratic form), with coordinates to six digits, and exactly the same when six digits are enough. Texts give no object.", "quantifier": "all lists of drawings of any length whose objects are still valid with their rounded coordinates (sides, radius, distances above the thresholds) and not decorated with points; all parameters; all thresholds with nullDeter at most 1", "why_tests_cant": "unbounded lists of objects; relates the writer and the reader, each of which could have a bug hidden by tests on literal files", "anchors": ["homog2d.hpp: Visitor::VisitExit, svgp::getAttribValue, importSvgPoints, getEllipseRotateAttr, PolylineBase::draw, Ellipse_::draw"]}
{"id": "C161", "title": "An open polyline is read back with all its points", "statement": "Importing the file written for an open polyline gives the same points. False: the import removes the last point when it equals the first one, even for an open polyline; addPoint accepts such points.", "quantifier": "all open polylines", "why_tests_cant": "tests only read literal files, never what was drawn", "anchors": ["homog2d.hpp: importSvgPoints, PolylineBase::p_addPoint"]}
{"id": "C162", "title": "A polyline written can be imported", "statement": "The file written for a valid polyline can be read. False: two points further apart than the threshold can be written alike (six digits), and the import then throws.", "quantifier": "all polylines accepted by the library", "why_tests_cant": "needs large coordinates", "anchors": ["homog2d.hpp: PolylineBase::draw, Visitor::VisitExit"]}
{"id": "C163", "title": "Any text and any attribute give a well-formed file", "statement": "Drawing a text, or an object with a well-formed list of attributes, gives a well-formed file. False: texts are not escaped ('a<b'), and an attribute 'stroke' given by the user is written twice.", "quantifier": "all texts, all well-formed lists of attributes", "why_tests_cant": "tests do not parse the files written", "anchors": ["homog2d.hpp: drawText, DrawParams::getAttrString, Circle_::draw"]}
{"id": "C164", "title": "Shapes are not filled unless asked for", "statement": "An object drawn without a fill attribute gets fill='none'. False: holdsFill searches 'fill=' anywhere in the text of the attributes, so that 'data-fill' prevents it and the shape is drawn filled in black.", "quantifier": "all well-formed user attributes", "why_tests_cant": "tests use fill itself only", "anchors": ["homog2d.hpp: DrawParams::holdsFill, Circle_::draw"]}
{"id": "C165", "title": "The import reads every ellipse", "statement": "A file with an ellipse element is imported. False: the attribute transform is required although SVG makes it optional; without it an exception stops the visit and the rest of the file is not read.", "quantifier": "all well-formed SVG files", "why_tests_cant": "the tests' ellipses all have the attribute", "anchors": ["homog2d.hpp: Visitor::VisitExit, svgp::getAttribString"]}
{"id": "C166", "title": "Marks drawn for points have the shape and place of their style", "statement": "A point in the image is drawn as segments whose points are exactly: those of a plus sign, a times sign, both (star), a diamond or a square centred on the point, of half-width the point size for the plus and the diamond, and 0.7 times the point size to the nearest integer for the times and the square. A point outside the image draws nothing.", "quantifier": "all points, image sizes, point sizes, the five styles made of segments, all parameters and well-formed user attributes", "why_tests_cant": "equality of point sets; the four points and the order of the segments are shared by the styles, a wrong pair gives a different figure for one style only", "anchors": ["homog2d.hpp: detail::drawPt, LPBase::impl_draw_LP"]}
{"id": "C167", "title": "Arrow of an oriented segment", "statement": "In the frame of the segment, the bar at its first point goes from (0,8) to (0,-8), and the two sides of the head go from (-8,8) and (-8,-8) to the end point: the head is on the side of the first point, symmetrical, whatever the length of the segment.", "quantifier": "all oriented segments longer than the threshold whose direction is outside the sign-fix zone, all thresholds", "why_tests_cant": "continuous domain; the choice of the side depends on a comparison of distances, also for segments shorter than the arrow", "anchors": ["homog2d.hpp: priv::getArrowSegments"]}
{"id": "C168", "title": "Aligned sides in an offset polygon", "statement": "A vertex between aligned sides adds no point to the offset polygon; every other vertex gives one point at the signed distance of both of its sides; the result is the polygon of these points, if the constructor accepts them.", "quantifier": "all simple polygons whose corners are each either exactly flat or turn by at least nullAngleValue, all distances above the threshold, all thresholds", "why_tests_cant": "unbounded number of sides; a flat vertex makes the two offset lines equal", "anchors": ["homog2d.hpp: PolylineBase::getOffsetPoly"]}
{"id": "C169", "title": "Polyline against a line, a segment, a circle", "statement": "The points reported by the intersection of a polyline with a line, a segment or a circle are exactly the points they have in common; for a line and a segment size() is the number of sides that are met.", "quantifier": "all open and closed polylines with any number of sides, in general position with respect to the other object up to the thresholds (ends of a side on the other object or at nullDistance of it, no side along it), all thresholds", "why_tests_cant": "unbounded number of sides, each with its own line; the tests look at a few squares", "anchors": ["homog2d.hpp: PolylineBase::intersects, IntersectM::add, IntersectM::get"]}
{"id": "C170", "title": "A line crosses a closed polyline an even number of times", "statement": "The intersection of a closed polyline with a line that avoids its vertices has an even size().", "quantifier": "all closed polylines in general position with respect to the line, all thresholds", "why_tests_cant": "parity over an unbounded number of sides, self-crossing polygons included", "anchors": ["homog2d.hpp: PolylineBase::intersects"]}
{"id": "C171", "title": "Intersection of two polylines", "statement": "a.intersects(b) and b.intersects(a) have the same size and get() returns the same list of points for both; the points are exactly the common points of the two polylines if the sides are in general position.", "quantifier": "all pairs of polylines with sides of at least nullDistance (symmetry); all pairs with sides in general position (exactness); all thresholds", "why_tests_cant": "two unbounded lists of sides, the loops are nested in a different order", "anchors": ["homog2d.hpp: PolylineBase::intersects, IntersectM::get"]}
{"id": "C172", "title": "size() is the number of common points", "statement": "size() of the intersection of a polyline with a line is the number of their common points. False: a common point that is a vertex is found on both of its sides and counted twice, for the triangle (0,0), (6,0), (3,4) and the line x=3 the size is 3 for 2 common points.", "quantifier": "all closed polylines and lines in general position", "why_tests_cant": "the tests use lines through the middle of the sides", "anchors": ["homog2d.hpp: PolylineBase::intersects, IntersectM::size"]}
{"id": "C173", "title": "Segments and polylines against a rectangle", "statement": "The intersection of a segment with a rectangle gives exactly the points of the segment that are on the border, each once, at most two; one point if exactly one end is strictly inside. The intersection of a polyline with a rectangle gives exactly the points of the polyline on the border.", "quantifier": "all rectangles, segments and open or closed polylines in general position up to the thresholds (ends and corners on the other line or at nullDistance of it, no side along another), all thresholds", "why_tests_cant": "continuous domain; the loop stops at two points and drops a point close to the first, so a wrong drop needs crossings near a corner", "anchors": ["homog2d.hpp: Segment/FRect intersects, PolylineBase::intersects, FRect_::intersects"]}
{"id": "C174", "title": "Intersection of two rectangles", "statement": "The points reported are exactly the points common to the two borders, in increasing order, the same for both calls r.intersects(o) and o.intersects(r); there are 0, 2 or 4 of them.", "quantifier": "all pairs of rectangles with no side closer than nullDistance to the line of a side of the other, all thresholds", "why_tests_cant": "all relative positions of two rectangles on a continuous domain", "anchors": ["homog2d.hpp: FRect_::intersects, p_intersects_R_C"]}
{"id": "C175", "title": "Colours in the SVG file", "statement": "The stroke of every line, circle, ellipse, rectangle, polygon and polyline element of the file is the colour of the drawing parameters as three decimal numbers; the colour of a text is # and six hexadecimal digits whose value is 65536 r + 256 g + b.", "quantifier": "all drawings, parameters with colour components in 0..255, well-formed user attributes, image sizes", "why_tests_cant": "all drawings and all 2^24 colours", "anchors": ["homog2d.hpp: DrawParams::getSvgRgbColor, Image::drawText, draw functions"]}
{"id": "C176", "title": "Indexes of the points in the SVG file; image size of a file", "statement": "With showIndex, the file holds one text per vertex, in order, with its index, at the vertex' coordinates without their fractional parts; none without showIndex. getImgSize returns a size only if the root element has both a width and a height.", "quantifier": "all polylines of at least 2 points, all parameters, well-formed user attributes; all root elements", "why_tests_cant": "unbounded number of points and all rational coordinates, negative ones included (truncation is not rounding down)", "anchors": ["homog2d.hpp: PolylineBase::draw, getImgSize"]}
{"id": "C177", "title": "Image of an ellipse by a homography", "statement": "If the homography sends no point of the ellipse or of its inside to infinity, the product is an ellipse: its matrix is that of a centre, two half-axes and an angle, and a point is inside, on or outside it iff its preimage is inside, on or outside the given one. For any ellipse given by its matrix, an image in particular, getCenter, getMajMin and area are those of the ellipse, angle() describes the same ellipse, isInside is exact and getBB is the smallest box.", "quantifier": "all ellipses and homographies with that condition; matrices with a determinant above the thresholds of the library and, for the angle, a term above nullDenom or an axis-aligned ellipse with a horizontal major axis; all thresholds", "why_tests_cant": "the image of an ellipse by a projective map is tested on two matrices; here all conics and all matrices", "anchors": ["homog2d.hpp: operator*(Homogr_,Ellipse_), Ellipse_::p_computeParams, getCenter, getMajMin, angle, area, pointIsInside, getBB"]}
{"id": "C178", "title": "A product with a homography always gives an ellipse", "statement": "The product of a homography and a circle is an ellipse or an error. False: if the circle meets the line sent to infinity the image is a hyperbola or a parabola, the product returns an object of type Ellipse without any error, and its half-axes are square roots of negative numbers (NaN).", "quantifier": "all homographies and circles", "why_tests_cant": "the tests use affine maps", "anchors": ["homog2d.hpp: operator*(Homogr_,Circle_), operator*(Homogr_,Ellipse_), p_computeParams"]}
{"id": "C179", "title": "Affine images of ellipses", "statement": "An affine map multiplies the area of an ellipse by the absolute value of the determinant of its linear part; a similarity of ratio s multiplies both half-axes and the reported length by s.", "quantifier": "all ellipses given by their matrix, all affine maps and similarities, whatever their third row scale, all thresholds, whenever the library reports a value", "why_tests_cant": "continuous families of maps and ellipses", "anchors": ["homog2d.hpp: operator*(Homogr_,Ellipse_), Ellipse_::area, getMajMin, length"]}
{"id": "C180", "title": "Transforming a collection of objects of several types", "statement": "Transforming a collection of points, lines, segments, circles, ellipses, rectangles and polylines held as variants keeps their number, the size of each and the homography; the type of each image is determined by the type of the object; the images do not depend on the order of the collection nor on the state of the cached matrix. An affine map keeps objects valid and multiplies every area by the absolute value of its determinant; a similarity of ratio s multiplies every length by s.", "quantifier": "all collections of any length; for the areas polygons that the library considers simple before and after; whenever the library reports a value; all thresholds", "why_tests_cant": "any length and any mix of nine types, with one homography whose cache is filled by the first line", "anchors": ["homog2d.hpp: CommonType_, fct::TransformFunct, TypeFunct, SizeFunct, LengthFunct, AreaFunct, operator*(Homogr_, ...)"]}
{"id": "C181", "title": "The image of an oriented segment is an oriented segment", "statement": "transform() keeps the type of an oriented segment, and so the orientation. False, even by the identity: the product of a homography and an OSegment is a Segment.", "quantifier": "all homographies and oriented segments", "why_tests_cant": "the type is chosen at compile time, a test that only compares points does not see it", "anchors": ["homog2d.hpp: operator*(Homogr_,SegVec)"]}
{"id": "C182", "title": "Ellipses in the build with HOMOG2D_OPTIMIZE_SPEED", "statement": "With cached parameters, after any sequence of translations, moves, comparisons and getter calls, getCenter, getMajMin, angle and area report exactly the parameters the ellipse was built with at its present centre, isInside is exact and getBB is the smallest box, whatever the size and the angle of the ellipse; the matrix always describes the same ellipse. The getters of an image compute the values once, as the default build does. Where the default build is right, both builds have the same matrix, centre and half-axes.", "quantifier": "all ellipses with 0 < minor <= major, all angles, all sequences of calls of any length, all thresholds; the box for a minor axis not below nullOrthogDistance; agreement of the builds for ellipses and angles above the thresholds and no comparison", "why_tests_cant": "the cache must stay current over unbounded sequences of calls, some of which rewrite the matrix and not the cache", "anchors": ["homog2d.hpp: Ellipse_::p_init, p_getParams, translate, moveTo, operator== under HOMOG2D_OPTIMIZE_SPEED"]}
{"id": "C183", "title": "HOMOG2D_OPTIMIZE_SPEED changes only the speed", "statement": "The option does not change any result. False in four ways: the angle of a vertical ellipse (90 against a right angle in radians), a small ellipse (error against its centre), the half-axes after a comparison (exchanged against kept), and a coefficient written with the public Matrix_::set (new half-axes against the old ones, still cached).", "quantifier": "all ellipses and calls", "why_tests_cant": "the test suite is built with one option at a time and compares each build with constants, not the builds with each other", "anchors": ["homog2d.hpp: Ellipse_::p_getParams, p_init, operator==, Matrix_::set"]}
{"id": "C184", "title": "The text written by the stream operators tells the object", "statement": "The text of a point, line, segment, oriented segment, rectangle, circle, polyline, ellipse, pair of intersection points or matrix can be read back: a reader finds the same kind, flags, number and order of points, and every number to six significant digits; a container is written as its size followed by one readable object per line. So two objects with the same text have the same shape (a line and a point at infinity apart), and the same numbers if these have at most six digits.", "quantifier": "all objects and containers of any length with rational coordinates; stream in its initial format", "why_tests_cant": "tests print to the screen and compare nothing; here all texts, with exponents, signs and padding", "anchors": ["homog2d.hpp: operator<< of LPBase, SegVec, FRect_, Circle_, PolylineBase, Ellipse_, Intersect, Matrix_, Hmatrix_, containers"]}
{"id": "C185", "title": "Different objects have different texts", "statement": "Two different objects are written differently, and the stream given receives the whole object. False: a line and a point at infinity are written alike, points one unit apart are written alike (six digits), and the points of an IntersectM are written on the standard output, the stream given only receives their number.", "quantifier": "all objects", "why_tests_cant": "output on the screen is checked by eye: there the standard output is the stream given", "anchors": ["homog2d.hpp: operator<< of LPBase and IntersectM, priv::printVector"]}
{"id": "C186", "title": "Drawing a line draws its visible part", "statement": "The segment drawn for a line is exactly the part of the line in the image rectangle, its border included; if nothing is drawn the line has no point strictly inside the image.", "quantifier": "all images larger than 2x2 (and than the thresholds), all unit lines exactly parallel to an axis or at nullAngleValue from both, that pass each corner of the image exactly or at nullDistance; all thresholds", "why_tests_cant": "real coordinates, a statement about every point of the line and of the image; the tests only produce pictures", "anchors": ["homog2d.hpp: LPBase::impl_draw_LP (line)", "homog2d.hpp: LPBase::impl_intersectsFRect()"]}
{"id": "C187", "title": "Equality, distances, angles and parallelism do not depend on the order of operands, bit for bit", "statement": "In binary64, distPP/sqDist/ptEq/shareCommonCoord of two points, getAngle/isParallelTo/operator== of two lines and operator== of two segments give identical results when the operands are exchanged; the length of a segment does not depend on its orientation.", "quantifier": "all doubles including infinities and NaN, all thresholds (std::hypot taken as sqrt(x*x+y*y), acos as a function)", "why_tests_cant": "2^128 and more pairs of operands; a test compares a handful, and rounding may break an identity of real arithmetic", "anchors": ["homog2d.hpp: LPBase::distTo()", "homog2d.hpp: LPBase::getAngle()", "homog2d.hpp: LPBase::operator==()", "homog2d.hpp: SegVec::operator==()"]}
{"id": "C188", "title": "The order of points is a strict weak order in binary64, a segment does not depend on the order of its points", "statement": "operator< on points is irreflexive, transitive, and incomparability is transitive and means the same coordinates; Segment(p,q) and Segment(q,p) are identical objects or both throw, and the stored ends are in order.", "quantifier": "all doubles that are not NaN (finite for segments), all thresholds with nullDistance > 0", "why_tests_cant": "universally quantified over doubles; std::sort and std::min_element have undefined behaviour without it", "anchors": ["homog2d.hpp: LPBase::operator<()", "homog2d.hpp: SegVec::p_fixOrder()"]}
{"id": "C189", "title": "Order of points with any coordinates", "statement": "The same for every double value, including NaN.", "quantifier": "all doubles", "why_tests_cant": "no test uses NaN; no constructor rejects it", "anchors": ["homog2d.hpp: LPBase::operator<()", "homog2d.hpp: SegVec::p_fixOrder()"]}
{"id": "C190", "title": "Flat rectangles in binary64", "statement": "The rectangle built from two opposite corners does not depend on which diagonal or on the order (up to the sign of a zero); its first corner is the lower one and its width and height are not negative and not NaN.", "quantifier": "all finite doubles (no NaN for the first part), all thresholds", "why_tests_cant": "universally quantified over doubles", "anchors": ["homog2d.hpp: FRect_::set()", "homog2d.hpp: detail::getCorrectPoints()"]}
{"id": "C191", "title": "Translation, scaling and identity homographies do not add rounding errors", "statement": "In binary64 the image of a point by the homography set by setTranslation(tx,ty) is exactly what translate(tx,ty) gives (one rounding per coordinate); by setScale: the rounded product; by the default homography: the point itself (up to the sign of a zero).", "quantifier": "all finite points, all doubles as parameters", "why_tests_cant": "universally quantified over doubles; equality is tested with thresholds only", "anchors": ["homog2d.hpp: Hmatrix_::setTranslation()", "homog2d.hpp: Hmatrix_::setScale()", "homog2d.hpp: operator * ( Hmatrix_, LPBase )"]}
{"id": "C192", "title": "Construction errors of lines are below the thresholds in binary64", "statement": "With the default thresholds and double: the points a line is built from are on it (distance below nullDistance), getPointAt(d) succeeds on every segment, the middle of a segment is aligned with its ends.", "quantifier": "all finite points far enough from each other", "why_tests_cant": "needs points with large coordinates; the tests use small ones", "anchors": ["homog2d.hpp: LPBase constructor (2 points)", "homog2d.hpp: SegVec::getPointAt()", "homog2d.hpp: areCollinear()", "homog2d.hpp: thr::nullDistance()"]}
{"id": "C193", "title": "Convex hull of integer points is exact in binary64", "statement": "convexHull on points with integer coordinates below 2^25 in absolute value, computed in doubles, returns exactly the convex hull (the hull of the real points, in order, beginning with the pivot).", "quantifier": "all lists of at least 4 different integer points with |x|,|y| <= 33554431, no two others aligned with the pivot", "why_tests_cant": "universally quantified over points and number of points; rounding errors in orientation tests are the classical failure of hull codes", "anchors": ["homog2d.hpp: convexHull()", "homog2d.hpp: chull::sortPoints()", "homog2d.hpp: chull::orientation()"]}
{"id": "C194", "title": "Areas and convexity of integer polygons are exact in binary64", "statement": "The signed area computed in doubles is exactly the area of the polygon, and the loop of isConvex takes the exact decision.", "quantifier": "area: |x|,|y| <= k and 2*k*k*n < 2^53; convexity: |x|,|y| <= 33554431; any number of points n", "why_tests_cant": "universally quantified over polygons; cancellation errors are only visible on large coordinates", "anchors": ["homog2d.hpp: PolylineBase::p_ComputeSignedArea()", "homog2d.hpp: PolylineBase::isConvex()"]}
{"id": "C195", "title": "Membership of rectangles, bounding boxes and extreme points are exact in binary64", "statement": "For finite doubles: a point is inside a rectangle exactly if its coordinates are strictly between; no point is outside the bounding box and each side of it is reached; getExtremePoint returns a point with the extreme coordinate, the lowest other coordinate among them.", "quantifier": "all finite doubles, any number of points, all thresholds", "why_tests_cant": "universally quantified over doubles and lists", "anchors": ["homog2d.hpp: detail::ptIsInside()", "homog2d.hpp: priv::getBB_Points()", "homog2d.hpp: getBmPoint_helper()", "homog2d.hpp: getExtremePoint()"]}
{"id": "C196", "title": "Translations and dimensions are correctly rounded in binary64", "statement": "The coordinates of a translated point (by translate() or by the translation homography), the width and the height of a rectangle are the doubles nearest to the exact real values; the relative error is at most 2^-53, subnormal results included.", "quantifier": "all finite doubles whose exact sum or difference does not exceed 2^1023 in absolute value", "why_tests_cant": "universally quantified over doubles; a test compares with thresholds", "anchors": ["homog2d.hpp: LPBase::translate()", "homog2d.hpp: Hmatrix_::setTranslation()", "homog2d.hpp: FRect_::width()", "homog2d.hpp: FRect_::height()"]}
{"id": "C197", "title": "Translation keeps containment in rectangles and bounding boxes in binary64", "statement": "If a point is in a closed rectangle, the translated point is in the translated closed rectangle; the bounding box of the translated points is the translated bounding box, the same doubles up to the sign of zeros.", "quantifier": "all finite doubles whose translated coordinates do not overflow, any number of points, all thresholds", "why_tests_cant": "universally quantified over doubles and lists; rounding moves every coordinate by a different amount", "anchors": ["homog2d.hpp: FRect_::translate()", "homog2d.hpp: LPBase::translate()", "homog2d.hpp: priv::getBB_Points()"]}
{"id": "C198", "title": "Translation in binary64 keeps strict containment, the order of the ends of a segment, and can be undone", "statement": "A point inside a rectangle is inside after translating both; the ends of a translated segment are in order and the segment equals the one built from the translated points; translating there and back gives an equal point.", "quantifier": "all finite doubles", "why_tests_cant": "the tests translate objects of about unit size by about unit vectors", "anchors": ["homog2d.hpp: SegVec::translate()", "homog2d.hpp: FRect_::isInside", "homog2d.hpp: LPBase::translate()"]}
{"id": "C199", "title": "Distances between points have a relative error of 6*2^-53, equality of points is decided rightly outside that band", "statement": "distTo() of two points and length() of a segment; operator== of points agrees with the exact distance unless it is within 6*2^-53 (relative) of nullDistance.", "quantifier": "all finite doubles with coordinates up to 2^500, whose differences of coordinates are 0 or at least 2^-500 (no underflow in the squares); std::hypot taken as sqrt(x*x+y*y)", "why_tests_cant": "universally quantified over doubles; the tests compare with thresholds", "anchors": ["homog2d.hpp: LPBase::distTo()", "homog2d.hpp: SegVec::length()", "homog2d.hpp: LPBase::operator==()"]}
{"id": "C200", "title": "Convex hull and convexity of general doubles are exact when no three points are nearly aligned", "statement": "convexHull() computed in doubles returns exactly the convex hull of the real points (in order, beginning with the pivot), and the loop of isConvex takes the exact decision.", "quantifier": "at least 4 different finite points with coordinates up to 2^500, each triple with a determinant above 2^-51 times the sum of its two products plus 2e-15 (for convexity: 2^-1000, consecutive triples only); any number of points", "why_tests_cant": "universally quantified over points; orientation tests in floating point are the classical failure of hull codes", "anchors": ["homog2d.hpp: convexHull()", "homog2d.hpp: chull::sortPoints()", "homog2d.hpp: chull::orientation()", "homog2d.hpp: PolylineBase::isConvex()"]}
{"id": "C201", "title": "Error bound of the signed area in binary64", "statement": "The computed signed area differs from the area of the polygon by at most (2n+3)*2^-53 times the sum of the absolute values of the products in the formula (plus a subnormal term); so its sign is right when the area exceeds that.", "quantifier": "all closed polylines of n <= 100000 points with finite coordinates up to 2^500", "why_tests_cant": "universally quantified over polygons; cancellation is only visible on unusual coordinates", "anchors": ["homog2d.hpp: PolylineBase::p_ComputeSignedArea()"]}
{"id": "C202", "title": "Lines built from two points in binary64", "statement": "The line built from two points is unit up to rounding and its distance to any point of the box is the true distance up to (5 M^2/D + 90 M) 2^-53, M bounding the coordinates and D being the distance of the two points. Hence both points are on the line whenever that error is below the threshold, and areCollinear() answers true on points aligned within the threshold less the error and false on points off by the threshold plus the error, whatever the order of the three points.", "quantifier": "all pairs (triples) of finite doubles with |coordinates| <= M <= 2^100 whose differences are 0 or at least 2^-100, not equal for the library, the line exactly horizontal or its normalised first coefficient clear of nullDenom by 9*2^-53; any finite thresholds with 0 <= epsilon < nullDistance; hypot is sqrt(x*x+y*y)", "why_tests_cant": "universally quantified over doubles, with a proved error bound; tests use a few points and a tolerance chosen by trial", "anchors": ["homog2d.hpp: priv::getLine, Line2d normalisation, LPBase::distTo(Point2d), areCollinear()"]}
{"id": "C203", "title": "Points along a segment in binary64", "statement": "getPointAt(d) does not throw and returns a point within 512*M*2^-53 of the point at distance d from the first point towards the second one, in spite of the choice between two candidates made by comparing two computed distances.", "quantifier": "all segments as in C202 with 512*M*2^-53 <= length and line error below nullDistance; all doubles 0 <= d <= 3M; hypot is sqrt(x*x+y*y)", "why_tests_cant": "universally quantified over doubles; the wrong candidate is only chosen for a tiny d, where tests do not look", "anchors": ["homog2d.hpp: SegVec::getPointAt(), LPBase::getPoints(pt,dist), priv::getPoints_B2"]}
{"id": "C204", "title": "Homographies from and to cv::Mat", "statement": "The assignment from a cv::Mat accepts exactly the 3x3 one-channel matrices of floats or doubles (an exception otherwise) and puts element 3r+c at row r, column c. Writing a homography with copyTo(CV_64F) and building another one from the result gives the same matrix and the same images of points and lines.", "quantifier": "all homography objects, all cv::Mat with as many elements as their size says, any number type", "why_tests_cant": "all shapes of input matrices and all objects; the tests only convert a few matrices, and only when built with OpenCV", "anchors": ["homog2d.hpp: Hmatrix_::operator=(cv::Mat), Hmatrix_(cv::Mat), Hmatrix_::copyTo()"]}
{"id": "C205", "title": "Assigning a cv::Mat to a homography in use", "statement": "After H = mat, H*line is the image of the line by the new matrix, and operator== is true of objects that transform every point alike.", "quantifier": "all homography objects and all valid cv::Mat", "why_tests_cant": "needs a line product before the assignment; no test does that", "anchors": ["homog2d.hpp: Hmatrix_::operator=(cv::Mat) does not set _hasChanged nor _isNormalized; operator*(Homogr_,Line2d_)"]}
{"id": "C206", "title": "Assigning a cv::Mat: the safe uses", "statement": "After H = mat, H*line is what a fresh copy of the object gives when no line was transformed before the assignment, or once normalize() has been called; and normalize() does not change the images of points.", "quantifier": "all histories of operations before the assignment, all valid cv::Mat, all lines and points (exact arithmetic)", "why_tests_cant": "quantified over histories of unbounded length", "anchors": ["homog2d.hpp: Hmatrix_::operator=(cv::Mat), Hmatrix_::normalize(), operator*(Homogr_,Line2d_)"]}
{"id": "C207", "title": "Coordinates of getCvPtd() and getCvPtf()", "statement": "The free functions returning a cv::Point2d (cv::Point2f) give the coordinates of the point (rounded to float).", "quantifier": "all points", "why_tests_cant": "the tests use points with integer coordinates", "anchors": ["homog2d.hpp: LPBase::getCvPtd(), LPBase::getCvPtf() (return type cv::Point2i), h2d::getCvPtd(), h2d::getCvPtf()"]}
{"id": "C208", "title": "Conversions of points and sizes for OpenCV", "statement": "getCvPti() truncates towards zero and is defined exactly when the results fit an int; on integer points the three conversions agree and building a point from the result gives it back; getPt() loses nothing and getPts() converts each point in order; the rectangle of an image has its width and height and an empty image raises an exception.", "quantifier": "all points with rational coordinates (every double is one), all lists, all image sizes", "why_tests_cant": "negative and non-integer coordinates and out-of-range values", "anchors": ["homog2d.hpp: getCvPti(), getCvPtd(), getCvPtf(), getPt(), getPts(), LPBase(cv::Point_), getFRect(cv::Mat)"]}
{"id": "C209", "title": "Polylines from boost polygons", "statement": "A closed ring (last point equal to the first) gives the closed polyline of its other points and raises an exception for an open polyline; a ring that is not closed gives the polyline that set() would build from its points.", "quantifier": "all rings of at least 2 points whose points set() accepts, any number type and thresholds", "why_tests_cant": "quantified over rings of any length", "anchors": ["homog2d.hpp: PolylineBase( boost::geometry::model::polygon )"]}
{"id": "C210", "title": "Checks of the points of a boost polygon", "statement": "A polyline built from a boost polygon is one that set() accepts (no identical contiguous points, not a single point).", "quantifier": "all rings", "why_tests_cant": "the tests only convert sound polygons", "anchors": ["homog2d.hpp: PolylineBase( boost::geometry::model::polygon ) does not call p_checkInputData()"]}
{"id": "C211", "title": "Square built from four points", "statement": "When buildSquare() returns, the polyline is a square (four equal sides, not null, a right angle); the lines of its sides hold the left-most, top-most, right-most and bottom-most point, in that order; the bottom line also holds the end of the segment left-right, turned by a right angle and moved to the top-most point, on the side closest to the left-most point. It returns whenever the points are far enough apart, and if the four extreme points are different, every given point is on the line of a side.", "quantifier": "all lists of four points, all thresholds; the directions left-right and turned point-bottom not in the sign-fix zone (less than 1e-10 rad from an axis, and not on it); for the existence, no triangle thinner than the distance threshold, and left-top and left-right at least that far apart along the bottom line (exact arithmetic, hypot = sqrt(x*x+y*y))", "why_tests_cant": "quantified over all positions of the points; the demo only draws the result", "anchors": ["homog2d.hpp: buildSquare(), areCollinear(), getOrthogLine(), getPoints(), getOrthogSegment()"]}
{"id": "C212", "title": "Square through all four points", "statement": "The lines of the sides of the square returned by buildSquare() hold the four given points.", "quantifier": "all lists of four points for which it returns", "why_tests_cant": "needs a point that is extreme in two directions", "anchors": ["homog2d.hpp: buildSquare() only reads the extreme points"]}
{"id": "C213", "title": "A square for any four points", "statement": "buildSquare() returns a square for any four points of which no three are aligned.", "quantifier": "all lists of four points without a triangle thinner than 1e-10", "why_tests_cant": "needs a left-most point that is also the top-most one", "anchors": ["homog2d.hpp: buildSquare() calls li_L.getOrthogSegment( pt_T ) with a point of li_L"]}
{"id": "C214", "title": "Perimeter of a polyline in binary64", "statement": "length() of a polyline of n points of binary64 coordinates returns a finite value whose relative error is at most (2n+7)*2^-53, and leaves the points as they were.", "quantifier": "open and closed polylines of 2 to 100000 points; coordinates below 2^500 whose differences along each side are null or at least 2^-500; sides longer than the distance threshold by 6*2^-53 (hypot = sqrt(x*x+y*y), each operation rounded)", "why_tests_cant": "all doubles and all lengths; tests compare a few sums with a tolerance", "anchors": ["homog2d.hpp: PolylineBase::length(), getSegs(), SegVec::length()"]}
{"id": "C215", "title": "Perimeter and area of a rectangle in binary64", "statement": "length() and area() of a rectangle return finite values with relative error at most 4*2^-53.", "quantifier": "all rectangles with coordinates below 2^500 (area: width and height null or at least 2^-500)", "why_tests_cant": "all doubles", "anchors": ["homog2d.hpp: FRect_::length(), area(), width(), height()"]}
{"id": "C216", "title": "Inside a circle, in binary64", "statement": "isInside(circle) of a point is right as soon as the distance to the centre differs from the radius by more than 7*2^-53 relatively. For a circle: when it answers true each point of the disk is in the other one, enlarged by 9*2^-53; when it answers false there is a point of the disk outside of the other one, reduced by as much.", "quantifier": "all binary64 points, centres (below 2^500, differences null or at least 2^-500) and finite radii (hypot = sqrt(x*x+y*y))", "why_tests_cant": "all doubles, all points of a disk", "anchors": ["homog2d.hpp: Point2d::isInside(Circle), CircleBase::isInside(Circle)"]}
{"id": "C217", "title": "Line through the origin and a point", "statement": "Line2d(pt) and Line2d(x,y) build the same line; it throws exactly if the point's stored values are null (norm at most epsilon), otherwise the line is normalised, holds the origin and its points are those aligned with the given point. It is also the line Line2d(Point2d(0,0),pt) and Line2d(0,0,x,y) build.", "quantifier": "all points (also at infinity), all thresholds; for the description of the points, direction not in the sign-fix zone; for the last part, point at least the distance threshold away from the origin (exact arithmetic, hypot = sqrt(x*x+y*y))", "why_tests_cant": "quantified over all points", "anchors": ["homog2d.hpp: LPBase constructors (one point, two numbers, four numbers), p_initFromPoint(), impl_init_2()"]}
{"id": "C218", "title": "Same checks in the two constructors", "statement": "Line2d(pt) and Line2d(Point2d(0,0),pt) either build the same line or both throw.", "quantifier": "all points", "why_tests_cant": "needs a point closer to the origin than the threshold", "anchors": ["homog2d.hpp: the one-point constructor does not compare the point with the origin"]}
{"id": "C219", "title": "Lines and points from vectors", "statement": "The constructors from a std::vector read exactly the first three values; less than three is undefined behaviour, otherwise it is the constructor from three values.", "quantifier": "all vectors, all number types", "why_tests_cant": "out-of-bounds reads are not visible in a test", "anchors": ["homog2d.hpp: LPBase( const std::vector<T>& )"]}
{"id": "C220", "title": "Objects after a failed set()", "statement": "After any history of calls (exceptions being caught) a line object is a line, a point object a point.", "quantifier": "all histories", "why_tests_cant": "tests stop at the exception", "anchors": ["homog2d.hpp: set(v0,v1,v2) stores the values, then normalises them"]}
{"id": "C221", "title": "Histories of lines and points", "statement": "When the last call of a history did not throw, whatever failed before, the line is normalised and distTo() is defined; when it threw, the object holds exactly the values given. For points: when the last call did not throw the object is a point (maybe at infinity), and set(x,y) always brings the object back to the point (x,y).", "quantifier": "all histories of set() and assignments of sound objects, all thresholds (exact arithmetic, hypot = sqrt(x*x+y*y))", "why_tests_cant": "quantified over all histories", "anchors": ["homog2d.hpp: LPBase::set(), p_normalizePL(), default constructors"]}
{"id": "C222", "title": "Conversion of an empty intersection", "statement": "An intersection result of two points, converted to another number type, has as many points as the original one.", "quantifier": "all results", "why_tests_cant": "the tests convert only results that hold points", "anchors": ["homog2d.hpp: Intersect<Inters_2> converting constructor calls get()"]}
{"id": "C223", "title": "Conversion of intersection results", "statement": "Converting a result that holds two points converts both of them, in order; converting a result of many points keeps their number, the answer of operator(), and the converted points are those of the original one.", "quantifier": "all results and all conversions", "why_tests_cant": "quantified over all lists of points and all conversion functions", "anchors": ["homog2d.hpp: Intersect<Inters_2>, IntersectM: converting constructors, size(), operator()"]}
{"id": "C224", "title": "Two main sides of a rectangle", "statement": "p_getPairSegs() returns the left side and the top side, the longest one first, of lengths height and width.", "quantifier": "all rectangles with width and height at least the distance threshold (exact arithmetic, hypot = sqrt(x*x+y*y))", "why_tests_cant": "quantified over all rectangles, both orders", "anchors": ["homog2d.hpp: FRect_::p_getPairSegs()"]}
{"id": "C225", "title": "Centroid of a polygon with integer coordinates, in binary64", "statement": "The coordinates computed by centroid() are the doubles nearest to those of the exact centroid (mean of the triangles of a fan around any point, weighted by their signed areas); the division by zero occurs exactly if the exact area is null.", "quantifier": "all lists of points with integer coordinates between -k and k, k at least 2, 4*k^3*n below 2^53 (the body of centroid(), after the isSimple() check)", "why_tests_cant": "all integer polygons of that size: 5000 points with coordinates up to 5000, 3 points up to 90000", "anchors": ["homog2d.hpp: PolylineBase::centroid(), p_ComputeSignedArea()"]}
{"id": "C226", "title": "Middle points in binary64", "statement": "getCenter() of a segment or a rectangle returns the doubles nearest to the exact middle coordinates; they lie between the coordinates of the ends, and both classes give the same value.", "quantifier": "all doubles below 2^500 whose sum is null or at least 2^-500", "why_tests_cant": "all doubles; (a+b)/2 and (a+b)*0.5 need not be rounded once", "anchors": ["homog2d.hpp: SegVec::getCenter(), FRect_::getCenter()"]}
{"id": "C227", "title": "Width, height and area of a rectangle without rounding error", "statement": "If the coordinates of the corners are positive and neither is more than twice the other, width() and height() are exact and area() is the double nearest to the exact area.", "quantifier": "all doubles below 2^500", "why_tests_cant": "all doubles; the domain where the subtraction is exact is not visible in tests", "anchors": ["homog2d.hpp: FRect_::width(), height(), area()"]}
{"id": "C228", "title": "Homography applied to a container of lines", "statement": "applyTo() gives to each line the value a fresh copy of the homography gives, and keeps the matrix; it succeeds exactly if each line succeeds on its own; if it throws, the elements before the faulty one are transformed, the others unchanged.", "quantifier": "all homography objects after any history in which the matrix elements are not written after the first product by a line; all containers", "why_tests_cant": "quantified over histories and containers; the inverse transpose is computed once and cached", "anchors": ["homog2d.hpp: Hmatrix_::applyTo()", "homog2d.hpp: operator*(Homogr_,Line2d_)"]}
{"id": "C229", "title": "applyTo() is all or nothing", "statement": "If applyTo() throws, the container is unchanged.", "quantifier": "all homographies and containers of lines", "why_tests_cant": "tests of exceptions look at the exception only", "anchors": ["homog2d.hpp: Hmatrix_::applyTo()"]}
{"id": "C230", "title": "Polylines from segments and from open polylines", "statement": "A polyline built from a segment holds its two points, its length is that of the segment if it is open and twice that if closed; it throws exactly if the points are equal up to the threshold. Closing an open polyline keeps its points and adds to its length the distance between its last and first points.", "quantifier": "all segments; all polylines of two points or more that the checks accept (exact arithmetic, hypot = sqrt(x*x+y*y))", "why_tests_cant": "quantified over all polylines", "anchors": ["homog2d.hpp: PolylineBase( const Segment_& )", "homog2d.hpp: PolylineBase( const OPolyline_& ), set()"]}
{"id": "C231", "title": "Conversion to a narrower numerical type", "statement": "A polyline, a segment or a rectangle converted to another numerical type satisfies the conditions that the constructors check.", "quantifier": "all objects, all rounding functions", "why_tests_cant": "points that are different doubles but equal floats are not tested", "anchors": ["homog2d.hpp: PolylineBase::set()", "homog2d.hpp: SegVec, FRect_: converting constructors"]}
{"id": "C232", "title": "What conversions keep", "statement": "Converted by a monotone function that changes values by at most d, a rectangle keeps the order of its corners and its sizes up to 2*d; a polyline whose contiguous points are at least nullDistance+4*d apart stays valid, and its points move by at most 2*d.", "quantifier": "all rectangles and polylines, all monotone conversions with error at most d on all values (exact arithmetic, hypot = sqrt(x*x+y*y))", "why_tests_cant": "all conversions between numerical types", "anchors": ["homog2d.hpp: PolylineBase: constructor from another polyline", "homog2d.hpp: FRect_: converting constructor"]}
{"id": "C233", "title": "Homographies from vectors of vectors", "statement": "The constructor accepts exactly three rows of three values whose last value is not below the threshold, and stores each value divided by the last one; it throws in all other cases.", "quantifier": "all vectors of vectors of numbers, of any sizes (exact arithmetic)", "why_tests_cant": "all sizes, including ragged rows", "anchors": ["homog2d.hpp: Hmatrix_( const std::vector<std::vector<T>>& )"]}
{"id": "C234", "title": "Distances and equality of integer points in binary64", "statement": "The distance computed between two points with integer coordinates is the double nearest to the exact distance, and exact if that is an integer; operator == holds exactly if the points are the same.", "quantifier": "all points with integer coordinates of absolute value up to 2^24, all thresholds in (0,1] (binary64 arithmetic, hypot = sqrt(x*x+y*y))", "why_tests_cant": "2^100 pairs of points, and rounding of the square root", "anchors": ["homog2d.hpp: Point2d_::distTo()", "homog2d.hpp: operator == for points"]}
{"id": "C235", "title": "Inside tests of circles in binary64", "statement": "A point is labelled inside, on the edge or outside a circle exactly as it is, and a circle is found inside another circle or a rectangle exactly if it is, although the distances are rounded.", "quantifier": "all integer points, centers and corners with coordinates up to 2^24 in absolute value, integer radii in 1..2^25, thresholds in (0,1e-9] (binary64 arithmetic, hypot = sqrt(x*x+y*y))", "why_tests_cant": "points at distance 1e-8 of the edge are not tested, and there are 2^120 cases", "anchors": ["homog2d.hpp: detail::getPtLabel()", "homog2d.hpp: Point2d_::isInside( Circle_ )", "homog2d.hpp: Circle_::isInside()"]}
{"id": "C236", "title": "Intersections of two circles are always defined", "statement": "intersects() of two circles never computes the square root of a negative number.", "quantifier": "all circles with coordinates and positive radii of type double", "why_tests_cant": "the tests use circles for which the rounded values happen to be on the right side", "anchors": ["homog2d.hpp: Circle_::intersects( Circle_ )"]}
{"id": "C237", "title": "Number of intersections of two circles in binary64", "statement": "intersects() of two circles finds no point if they are equal, apart or nested, exactly one if they touch from the outside or the inside, and exactly two if they cross; all coordinates are finite and no square root of a negative number is taken.", "quantifier": "all circles with integer centers of coordinates up to 2^24 in absolute value and integer radii in 1..65536, all values of nullDistance in (0,1/500] (binary64 arithmetic, hypot = sqrt(x*x+y*y))", "why_tests_cant": "2^132 pairs of circles; nearly tangent ones are not tested", "anchors": ["homog2d.hpp: Circle_::intersects( Circle_ )"]}
{"id": "C238", "title": "Nearest and farthest points in binary64", "statement": "findNearestPoint() and findFarthestPoint() report the first exactly nearest (farthest) point among those different from the query; findNearestFarthestPoint() reports the same two points.", "quantifier": "all queries and containers of at least two points with integer coordinates up to 2^24 in absolute value, of any length; one of the first two points different from the query (for the nearest one), some point different from it (for the farthest one); thresholds in (0,1] (binary64 arithmetic, hypot = sqrt(x*x+y*y))", "why_tests_cant": "quantified over all containers of any length", "anchors": ["homog2d.hpp: priv::findPoint()", "homog2d.hpp: findNearestFarthestPoint()"]}
{"id": "C239", "title": "Closest points of two sets in binary64", "statement": "getClosestPoints() reports an exactly closest pair, the first one in the order of the loops, although it compares rounded distances; the distance reported is the double nearest to the exact one.", "quantifier": "all non-empty sets of points with integer coordinates up to 2^23 in absolute value, of any sizes (binary64 arithmetic, hypot = sqrt(x*x+y*y))", "why_tests_cant": "two different distances can be 1e-8 apart; rounding could make them equal", "anchors": ["homog2d.hpp: getClosestPoints()"]}
{"id": "C240", "title": "Rectangles with integer corners in binary64", "statement": "Width, height, area and length of a rectangle are exact; operator == holds exactly if the corners are the same; a rectangle is found inside a circle exactly if its four corners are; getPtsInside() of a circle keeps exactly the points inside it, in their order.", "quantifier": "all rectangles, points and centers with integer coordinates up to 2^24 in absolute value, integer radii in 1..2^25, thresholds in (0,1] (binary64 arithmetic, hypot = sqrt(x*x+y*y))", "why_tests_cant": "2^100 rectangles; areas up to 2^50 are close to the limit of exact integers", "anchors": ["homog2d.hpp: FRect_::width(), height(), area(), length(), operator ==", "homog2d.hpp: FRect_::isInside( Circle_ )", "homog2d.hpp: getPtsInside()"]}
