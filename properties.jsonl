{"id": "C01", "title": "Bounded integer construction is exact", "statement": "Building a BoundedX<MIN,MAX> with new / try_from (from any builtin integer type) returns Ok holding exactly the given value when MIN <= value <= MAX, and Err(OutOfBounds) otherwise; new_unwrap / new_static return that same value or panic, with no third outcome.", "quantifier": "every bounded integer type (all MIN <= MAX of all twelve builtin integer types) and every value of every source integer type", "why_tests_cant": "the space of (type, MIN, MAX, source type, value) is astronomically large; tests sample BoundedI8<-2,5> and <0,20> only", "anchors": ["src/sqrid/boundedint.rs::BoundedU8::new", "src/sqrid/boundedint.rs::BoundedU8::new_unwrap", "src/sqrid/boundedint.rs::BoundedU8::new_static", "src/sqrid/boundedint.rs::boundedint_impl_tryfrom"]}
{"id": "C02", "title": "Checked bounded arithmetic is exact", "statement": "checked_add, checked_sub, inc and dec return Some(mathematical result) exactly when that result lies in [MIN,MAX], and None otherwise; no intermediate overflow, wrap-around or panic is observable, even when 1 is itself outside [MIN,MAX]; for the builtin types the bounds are those of two's complement.", "quantifier": "every bounded or builtin integer type and all in-range operands", "why_tests_cant": "quantifies over all operands of all widths, including the extreme ones where the inner machine addition itself overflows", "anchors": ["src/sqrid/boundedint.rs::BoundedInt::checked_add", "src/sqrid/boundedint.rs::BoundedInt::checked_sub", "src/sqrid/boundedint.rs::BoundedInt::inc", "src/sqrid/boundedint.rs::BoundedInt::dec", "src/sqrid/boundedint.rs::BoundedInt::one"]}
{"id": "C03", "title": "Bounded integer iteration is a double-ended queue of the range", "statement": "BoundedInt::iter() yields MIN..=MAX in ascending order when driven forwards; driven by any mixture of next and next_back it behaves like popping the two ends of the list MIN..=MAX, then returns None for ever.", "quantifier": "every bounded integer type and every finite sequence of next / next_back calls", "why_tests_cant": "the number of interleavings is exponential in the range and the range is arbitrary; a test fixes one alternation on one type", "anchors": ["src/sqrid/boundedint.rs::BoundedIntIterator::next", "src/sqrid/boundedint.rs::BoundedIntIterator::next_back", "src/sqrid/boundedint.rs::BoundedInt::iter"]}
{"id": "C04", "title": "Safe conversions never produce an out-of-range bounded integer", "statement": "A value obtained from the safe conversions (From<bool>, Default, new, try_from, checked_add, ...) always lies in [MIN,MAX].", "quantifier": "every bounded type and every safe constructor", "why_tests_cant": "universal over types; the offending types (those whose range excludes 0 or 1) are simply never instantiated by tests", "anchors": ["src/sqrid/boundedint.rs::From<bool> for BoundedU8", "src/sqrid/boundedint.rs::Default for BoundedU8"]}
{"id": "C05", "title": "Pos construction is exact", "statement": "Pos::<XMAX,YMAX>::new(x,y), try_from((u16,u16)), PosT::new with any integer type and new_unwrap succeed exactly when x <= XMAX and y <= YMAX, return a position whose coordinates are x and y, and otherwise give OutOfBounds (new_unwrap: panic).", "quantifier": "all grid dimensions XMAX, YMAX in u16 and all coordinates of any integer type", "why_tests_cant": "2^64 combinations of dimensions and coordinates", "anchors": ["src/sqrid/pos.rs::Pos::new", "src/sqrid/pos.rs::Pos::new_unwrap", "src/sqrid/pos.rs::TryFrom<(u16, u16)> for Pos", "src/sqrid/postrait.rs::PosT::new"]}
{"id": "C06", "title": "Pos conversion from signed coordinates rejects what is outside the grid", "statement": "Pos::try_from((i32,i32)) returns Ok exactly when both coordinates are inside the grid (0 <= x <= XMAX and 0 <= y <= YMAX), in which case the coordinates are preserved; converting back gives the same pair.", "quantifier": "all grid dimensions and all pairs of i32", "why_tests_cant": "2^64 pairs; the failing inputs are those whose low 16 bits look like a valid coordinate", "anchors": ["src/sqrid/pos.rs::TryFrom<&(i32, i32)> for Pos", "src/sqrid/pos.rs::From<&Pos> for (i32, i32)"]}
{"id": "C07", "title": "Position index bijection", "statement": "to_usize maps the positions of a grid one-to-one onto 0..SIZE in row-major order, try_from(usize) is its exact inverse and returns OutOfBounds for every index >= SIZE.", "quantifier": "all grid dimensions, all positions and all usize indices", "why_tests_cant": "ranges over every dimension up to 65536x65536 and every 64-bit index", "anchors": ["src/sqrid/postrait.rs::PosT::to_usize", "src/sqrid/postrait.rs::PosT::tryfrom_usize", "src/sqrid/postrait.rs::PosT::width"]}
{"id": "C08", "title": "next/prev are inverse successor functions", "statement": "next returns the position with the next row-major index and None exactly at the last position; prev is its inverse; next_y / prev_y do the same in column-major order.", "quantifier": "all grid dimensions and all positions", "why_tests_cant": "universal over positions and dimensions, including one-column and one-row grids", "anchors": ["src/sqrid/postrait.rs::PosT::next", "src/sqrid/postrait.rs::PosT::prev", "src/sqrid/postrait.rs::PosT::next_y", "src/sqrid/postrait.rs::PosT::prev_y"]}
{"id": "C09", "title": "Full-grid iteration visits every position exactly once", "statement": "iter / iter_horizontal yields exactly the positions of the grid, each once, in index order; iter_vertical yields exactly the same positions, each once, column by column; rev() yields the reverse.", "quantifier": "all grid dimensions", "why_tests_cant": "unbounded family of dimensions; tests check 6x7 and 2x2", "anchors": ["src/sqrid/postrait.rs::PosT::iter", "src/sqrid/postrait.rs::PosT::iter_vertical", "src/sqrid/postrait.rs::PosTIter::next", "src/sqrid/postrait.rs::PosTIter::next_back"]}
{"id": "C10", "title": "Double-ended position iteration never skips or repeats", "statement": "Under any sequence of next and next_back calls, PosTIter behaves like popping the two ends of the list of all positions: together the calls deliver each position exactly once and afterwards always None.", "quantifier": "all grid dimensions, both orientations and all finite call sequences", "why_tests_cant": "2^(W*H) interleavings for each dimension", "anchors": ["src/sqrid/postrait.rs::PosTIter::next", "src/sqrid/postrait.rs::PosTIter::next_back"]}
{"id": "C11", "title": "size_hint bounds the remaining items", "statement": "At any moment the size_hint of PosTIter, PosTIterRange, PosTIterInX, PosTIterInY and DirIter is a valid (lower, upper) bound on the number of items still to come.", "quantifier": "all grid dimensions, iterators and consumption points", "why_tests_cant": "the tests only ask for the hint of a fresh iterator", "anchors": ["src/sqrid/postrait.rs::PosTIter::size_hint", "src/sqrid/postrait.rs::PosTIterRange::size_hint", "src/sqrid/postrait.rs::PosTIterInX::size_hint", "src/sqrid/postrait.rs::PosTIterInY::size_hint", "src/sqrid/dir.rs::DirIter::size_hint"]}
{"id": "C12", "title": "Rectangle iteration covers exactly the rectangle", "statement": "iter_range(tl, br) with tl above-left of br yields exactly the positions p with tl.x <= p.x <= br.x and tl.y <= p.y <= br.y, each once, row by row, and then stops.", "quantifier": "all grid dimensions and all corner pairs", "why_tests_cant": "quartic in the dimensions; the failing rectangles touch the bottom row but not the right column, which tests never do", "anchors": ["src/sqrid/postrait.rs::PosTIterRange::next", "src/sqrid/postrait.rs::PosT::iter_range"]}
{"id": "C13", "title": "Row and column iteration", "statement": "iter_in_x(x) yields exactly (x,0),(x,1),...,(x,YMAX) and iter_in_y(y) yields exactly (0,y),...,(XMAX,y).", "quantifier": "all grid dimensions and all rows / columns", "why_tests_cant": "universal over dimensions", "anchors": ["src/sqrid/postrait.rs::PosTIterInX::next", "src/sqrid/postrait.rs::PosTIterInY::next"]}
{"id": "C14", "title": "tlbr_of returns the tight bounding box", "statement": "tlbr_of(iter) returns Err(Empty) exactly for an empty iterator; otherwise the returned rectangle contains every iterated position and each of its four sides touches one of them.", "quantifier": "all grid dimensions and all finite sequences of positions", "why_tests_cant": "unbounded sequences; correctness is a statement about every element", "anchors": ["src/sqrid/postrait.rs::PosT::tlbr_of"]}
{"id": "C15", "title": "manhattan is the L1 metric and never overflows", "statement": "manhattan(p,q) = |p.x-q.x| + |p.y-q.y| for all positions, hence it is symmetric, zero only on equal positions and satisfies the triangle inequality; it does not panic on Pos.", "quantifier": "all grid dimensions, all pairs / triples of positions", "why_tests_cant": "universal over pairs of positions of grids with up to 2^32 cells", "anchors": ["src/sqrid/postrait.rs::PosT::manhattan"]}
{"id": "C16", "title": "inside tests membership in the rectangle of any two opposite corners", "statement": "p.inside(a,b) is true exactly when p lies in the axis-aligned rectangle spanned by a and b, whichever opposite corners a and b are.", "quantifier": "all grid dimensions and all triples of positions", "why_tests_cant": "six coordinates of arbitrary size", "anchors": ["src/sqrid/postrait.rs::PosT::inside"]}
{"id": "C17", "title": "Flips, corners and sides", "statement": "flip_h maps (x,y) to (XMAX-x,y) and flip_v to (x,YMAX-y), both without panicking; they are involutions that commute; is_corner / is_side hold exactly at the grid corners / border and are invariant under flips.", "quantifier": "all grid dimensions and all positions", "why_tests_cant": "universal over dimensions, including 1-wide grids", "anchors": ["src/sqrid/postrait.rs::PosT::flip_h", "src/sqrid/postrait.rs::PosT::flip_v", "src/sqrid/postrait.rs::PosT::is_corner", "src/sqrid/postrait.rs::PosT::is_side"]}
{"id": "C18", "title": "Position rotation on square grids", "statement": "On a square grid rotate_cw maps (x,y) to (XMAX-y,x), rotate_cc is its inverse, four quarter turns are the identity, two clockwise turns equal two counter-clockwise turns, and corners / sides are preserved; on a non-square grid rotation panics exactly for positions whose image would be outside.", "quantifier": "all grid dimensions and all positions", "why_tests_cant": "universal; only 5x5 is tested", "anchors": ["src/sqrid/postrait.rs::PosT::rotate_cw", "src/sqrid/postrait.rs::PosT::rotate_cc"]}
{"id": "C19", "title": "Conversion between grid types", "statement": "tryfrom_pos succeeds exactly when the position of the source grid also lies inside the target grid, and keeps the coordinates.", "quantifier": "all pairs of grid dimensions and all positions", "why_tests_cant": "four dimension parameters and two coordinates", "anchors": ["src/sqrid/postrait.rs::PosT::tryfrom_pos"]}
{"id": "C20", "title": "Named positions and dimensions", "statement": "FIRST, LAST, TOP_LEFT, TOP_RIGHT, BOTTOM_LEFT, BOTTOM_RIGHT and CENTER are always inside the grid, are the positions their names say, and width / height / dimensions / SIZE equal XMAX+1, YMAX+1 and their product without overflow.", "quantifier": "all grid dimensions", "why_tests_cant": "2^32 dimension pairs", "anchors": ["src/sqrid/pos.rs::Pos::FIRST", "src/sqrid/pos.rs::Pos::LAST", "src/sqrid/pos.rs::Pos::CENTER", "src/sqrid/pos.rs::Pos::TOP_RIGHT", "src/sqrid/pos.rs::Pos::BOTTOM_LEFT", "src/sqrid/pos.rs::Pos::SIZE", "src/sqrid/pos.rs::Pos::WIDTH", "src/sqrid/postrait.rs::PosT::dimensions", "src/sqrid/postrait.rs::PosT::first", "src/sqrid/postrait.rs::PosT::last"]}
{"id": "C21", "title": "Directions form the clockwise rotation group", "statement": "Dir + Dir is rotation: associative, commutative, with identity N, and every direction has an inverse; -d is the opposite direction (an involution equal to a half turn); is_diagonal(d) holds exactly for NE, SE, SW, NW and is compatible with rotation.", "quantifier": "all directions, pairs and triples of directions", "why_tests_cant": "algebraic laws over all combinations (tests list only S + x)", "anchors": ["src/sqrid/dir.rs::Dir::rotate", "src/sqrid/dir.rs::Dir::flip", "src/sqrid/dir.rs::Dir::is_diagonal", "src/sqrid/dir.rs::Add for Dir", "src/sqrid/dir.rs::Neg for Dir"]}
{"id": "C22", "title": "Direction / displacement round trip", "statement": "Converting a Dir to an (integer,integer) displacement and back gives the same Dir; try_from succeeds exactly on the eight unit displacements and fails with InvalidDirection on every other pair; the displacement of -d is the negated displacement.", "quantifier": "all directions and all pairs of integers of any signed type", "why_tests_cant": "the rejection part ranges over all integer pairs", "anchors": ["src/sqrid/dir.rs::tuple_conv_i_impl"]}
{"id": "C23", "title": "Direction text round trip", "statement": "Parsing accepts exactly the documented single-character spellings and returns the direction they name; name_utf8(_char) and name_ascii(_char) parse back to the same direction; the Display text of every direction parses back to it; every other string fails with DirParseError.", "quantifier": "all directions and all strings", "why_tests_cant": "the rejection part ranges over all strings; the Display/parse law is only tested for the four cardinal directions", "anchors": ["src/sqrid/dir.rs::TryFrom<char> for Dir", "src/sqrid/dir.rs::FromStr for Dir", "src/sqrid/dir.rs::Display for Dir", "src/sqrid/dir.rs::Dir::name_ascii", "src/sqrid/dir.rs::Dir::name_utf8"]}
{"id": "C24", "title": "Direction iteration", "statement": "Dir::iter::<true>() yields the 8 directions and Dir::iter::<false>() the 4 cardinal ones, clockwise from N, each once, then None for ever; next::<D> never panics and gives the next direction in clockwise order.", "quantifier": "both values of D and all directions", "why_tests_cant": "totality of next over all directions for both D is not exercised by iterating from N", "anchors": ["src/sqrid/dir.rs::Dir::next", "src/sqrid/dir.rs::DirIter::next"]}
{"id": "C25", "title": "Pos + Dir is exact and reversible", "statement": "pos + dir is Ok exactly when the displaced coordinates are inside the grid, and is then that displaced position; otherwise it is Err(OutOfBounds). Whenever p + d = Ok(q), q + (-d) = Ok(p).", "quantifier": "all grid dimensions (and all builtin / bounded integer tuple types), all positions and directions", "why_tests_cant": "universal over positions and dimensions including degenerate 1x1 grids and the extremes of machine integers", "anchors": ["src/sqrid/dir.rs::Add<Dir> for (T, U)", "src/sqrid/posdir.rs::Add<Dir> for Pos", "src/sqrid/posdir.rs::pos_dir_add_ok"]}
{"id": "C26", "title": "direction_to leads to the target by a shortest route", "statement": "direction_to(p,q) is None exactly when p = q. Otherwise stepping in that direction stays in the grid, and repeating it reaches q after exactly manhattan(p,q) steps without diagonals, or exactly max(|dx|,|dy|) steps with diagonals.", "quantifier": "all grid dimensions and all pairs of positions", "why_tests_cant": "unbounded walks between arbitrary pairs; the function has no tests at all", "anchors": ["src/sqrid/posdir.rs::direction_to"]}
{"id": "C27", "title": "Integer tuples are full-range positions", "statement": "For the PosT implementations on integer tuples ((u8,u8), (i8,i8), ...) the advertised WIDTH/HEIGHT constants agree with width()/height(), every position has an index, and row / column iteration covers the whole row / column.", "quantifier": "all supported tuple types and all positions", "why_tests_cant": "ranges over all positions of the types, and depends on the negative half that tests never touch", "anchors": ["src/sqrid/postrait.rs::postrait_integer_impl", "src/sqrid/postrait.rs::PosT::to_usize", "src/sqrid/postrait.rs::PosTIterInX::next"]}
{"id": "C28", "title": "Position order is column-major iteration order", "statement": "Comparing positions with < (derived Ord) agrees with the order in which iter_vertical yields them; it is a strict total order.", "quantifier": "all grid dimensions and all pairs of positions", "why_tests_cant": "universal over pairs; used implicitly by BTreeMap and the search frontier", "anchors": ["src/sqrid/pos.rs::derive(PartialOrd, Ord) for Pos"]}
{"id": "C29", "title": "Grid get/set laws without out-of-bounds access", "statement": "On a Grid whose SIZE equals the number of positions, reading or writing at any position never touches memory outside the array; a read returns the last value written at that position and a write changes no other position.", "quantifier": "all grid dimensions, element types, positions and write histories", "why_tests_cant": "memory safety of get_unchecked for every position and dimension cannot be shown by examples", "anchors": ["src/sqrid/grid.rs::Grid::get", "src/sqrid/grid.rs::Grid::get_mut", "src/sqrid/grid.rs::Index<P> for Grid", "src/sqrid/grid.rs::IndexMut<P> for Grid"]}
{"id": "C30", "title": "Grid rejects a wrong SIZE parameter", "statement": "As documented ('This value is checked at compile time'), no Grid whose SIZE differs from WIDTH*HEIGHT can be created, so safe code can never index outside the array.", "quantifier": "all dimensions, all SIZE values and all constructors", "why_tests_cant": "it is a statement about types the tests never instantiate", "anchors": ["src/sqrid/grid.rs::Grid::_ASSERTS", "src/sqrid/grid.rs::Grid::repeat", "src/sqrid/grid.rs::Default for Grid", "src/sqrid/grid.rs::Grid::get"]}
{"id": "C31", "title": "Grid flips move every element to its mirror position", "statement": "After flip_h the element at every position p is the one that was at p.flip_h(); after flip_v the one that was at p.flip_v(); nothing is lost or duplicated and flipping twice restores the grid.", "quantifier": "all grid dimensions (odd and even), element types and contents", "why_tests_cant": "all contents and dimensions; in-place swapping errors show up only for particular parities", "anchors": ["src/sqrid/grid.rs::Grid::flip_h", "src/sqrid/grid.rs::Grid::flip_v"]}
{"id": "C32", "title": "Grid rotations move every element by a quarter turn", "statement": "After rotate_cw the element at p.rotate_cw() is the one that was at p, for every position; rotate_cc is the inverse; four rotations restore the grid.", "quantifier": "all square dimensions (odd and even), element types and contents", "why_tests_cant": "in-place ring rotation over all sizes; tests check 3x3 and 5x5 only", "anchors": ["src/sqrid/grid.rs::Grid::rotate_cw", "src/sqrid/grid.rs::Grid::rotate_cc"]}
{"id": "C33", "title": "Collecting into a Grid", "statement": "Collecting an iterator into a Grid succeeds exactly when it has SIZE items (it panics otherwise); the i-th item ends up at the position of index i; collecting the grid's own iterator gives the same grid; iter_pos pairs every position with its element in index order; negation negates every element.", "quantifier": "all grid dimensions and all item sequences", "why_tests_cant": "universal over lengths and contents", "anchors": ["src/sqrid/grid.rs::FromIterator<T> for Grid", "src/sqrid/grid.rs::FromIterator<&T> for Grid", "src/sqrid/grid.rs::Grid::iter_pos", "src/sqrid/grid.rs::Neg for Grid"]}
{"id": "C34", "title": "Building a Grid from nested vectors", "statement": "Grid::try_from(vec of rows) fails with OutOfBounds exactly when there are more than height rows or some row is longer than width; otherwise the element at (x,y) is rows[y][x] when that exists and the default value elsewhere.", "quantifier": "all grid dimensions and all ragged nested vectors", "why_tests_cant": "arbitrary ragged shapes and sizes", "anchors": ["src/sqrid/grid.rs::TryFrom<Vec<Vec<T>>> for Grid"]}
{"id": "C35", "title": "extend_from_vecvec writes exactly the given cells", "statement": "extend_from_vecvec(rows) returns Ok exactly when every given cell is inside the grid; then the element at (x,y) becomes rows[y][x] where given and all other elements are unchanged.", "quantifier": "all grid dimensions, grid contents and nested vectors", "why_tests_cant": "needs nested vectors longer than 65536 to fail; arbitrary shapes", "anchors": ["src/sqrid/grid.rs::Grid::extend_from_vecvec"]}
{"id": "C36", "title": "Lines and extend", "statement": "line(y) is exactly the elements of row y in order, writing through line_mut(y) changes exactly that row, and extend with (position, value) pairs leaves at each position the last value given for it and every other element unchanged.", "quantifier": "all grid dimensions, rows and pair sequences", "why_tests_cant": "arbitrary sequences with repeated positions", "anchors": ["src/sqrid/grid.rs::Grid::line", "src/sqrid/grid.rs::Grid::line_mut", "src/sqrid/grid.rs::Extend<(P, T)> for Grid"]}
{"id": "C37", "title": "Gridbool get/set laws", "statement": "On a Gridbool over a Pos type whose WORDS passes its compile-time assertion (and on any Gridbool with at least one bit per position), get after set at the same position returns the value set, set changes no other position, and no position panics; ALL_TRUE / ALL_FALSE / repeat hold the stated value everywhere.", "quantifier": "all grid dimensions, all bitmap contents, all pairs of positions", "why_tests_cant": "bit-level aliasing between positions is a statement about all pairs of positions of all sizes", "anchors": ["src/sqrid/gridbool.rs::Gridbool::get", "src/sqrid/gridbool.rs::Gridbool::set", "src/sqrid/gridbool.rs::Gridbool::set_t", "src/sqrid/gridbool.rs::Gridbool::set_f", "src/sqrid/gridbool.rs::Gridbool::byte_bit", "src/sqrid/gridbool.rs::Gridbool::repeat"]}
{"id": "C38", "title": "The type macros always give valid sizes", "statement": "For every XMAX, YMAX the WORDS computed by sqrid_create! and by gridbool_create! satisfy Gridbool's size assertion, and the SIZE computed by sqrid_create! / grid_create! is the number of positions; nothing overflows usize.", "quantifier": "all u16 dimensions", "why_tests_cant": "2^32 type instantiations", "anchors": ["src/sqrid/base.rs::sqrid_create", "src/sqrid/gridbool.rs::gridbool_create", "src/sqrid/gridbool.rs::Gridbool::_ASSERTS", "src/sqrid/grid.rs::grid_create"]}
{"id": "C39", "title": "Gridbool iterators and collection", "statement": "iter yields the booleans in index order; iter_t / iter_f yield exactly the positions holding true / false, each once and in index order; collecting positions sets exactly those; collecting booleans needs exactly WIDTH*HEIGHT items (panics otherwise) and iter gives them back.", "quantifier": "all grid dimensions and contents", "why_tests_cant": "arbitrary contents and sizes", "anchors": ["src/sqrid/gridbool.rs::Gridbool::iter", "src/sqrid/gridbool.rs::Gridbool::iter_t", "src/sqrid/gridbool.rs::Gridbool::iter_f", "src/sqrid/gridbool.rs::Gridbool::iter_pos", "src/sqrid/gridbool.rs::FromIterator<P> for Gridbool", "src/sqrid/gridbool.rs::FromIterator<bool> for Gridbool", "src/sqrid/gridbool.rs::Gridbool::set_iter_t", "src/sqrid/gridbool.rs::Gridbool::set_iter_f"]}
{"id": "C40", "title": "Gridbool flips", "statement": "After flip_h (flip_v) the value at every position p is the one that was at p.flip_h() (p.flip_v()).", "quantifier": "all grid dimensions and contents", "why_tests_cant": "in-place bit swapping over all sizes and contents", "anchors": ["src/sqrid/gridbool.rs::Gridbool::flip_h", "src/sqrid/gridbool.rs::Gridbool::flip_v"]}
{"id": "C41", "title": "Gridbool rotations move every bit by a quarter turn", "statement": "On a square Gridbool, after rotate_cw the value at p.rotate_cw() is the one that was at p, for every position; rotate_cc is the inverse.", "quantifier": "all square dimensions (odd and even) and contents", "why_tests_cant": "the only tested size is 5x5; even sizes behave differently", "anchors": ["src/sqrid/gridbool.rs::Gridbool::rotate_cw", "src/sqrid/gridbool.rs::Gridbool::rotate_cc"]}
{"id": "C42", "title": "Gridbool equality is equality of contents", "statement": "Two Gridbools of the same type compare equal exactly when they hold the same value at every position.", "quantifier": "all grid dimensions and all pairs of Gridbools however obtained", "why_tests_cant": "depends on padding bits that only appear when WIDTH*HEIGHT is not a multiple of 32", "anchors": ["src/sqrid/gridbool.rs::derive(PartialEq) for Gridbool", "src/sqrid/gridbool.rs::Gridbool::repeat"]}
{"id": "C43", "title": "All set and map backends behave alike", "statement": "Under any sequence of insert / remove / set / contains operations Gridbool, HashSet and BTreeSet answer like a mathematical set of positions; under any sequence of new / set / get operations Grid and the HashMap / BTreeMap pairs answer like a function with a default value.", "quantifier": "all grid dimensions and all operation histories", "why_tests_cant": "unbounded histories", "anchors": ["src/sqrid/setpos.rs::SetPos", "src/sqrid/setpos.rs::SetPos for Gridbool", "src/sqrid/setpos.rs::SetPos for HashSet", "src/sqrid/setpos.rs::SetPos for BTreeSet", "src/sqrid/mappos.rs::MapPos", "src/sqrid/mappos.rs::MapPos for Grid", "src/sqrid/mappos.rs::MapPos for (HashMap, Item)"]}
{"id": "C44", "title": "Path reconstruction is sound and total", "statement": "camefrom_into_path on any map whatsoever returns after finitely many steps without panicking; when it returns Ok(path), walking path from orig stays in the grid and ends exactly at dest; DestinationUnreachable is returned exactly when dest has no entry.", "quantifier": "all grid dimensions, all direction maps, all orig / dest pairs", "why_tests_cant": "arbitrary user-supplied maps, including cyclic ones", "anchors": ["src/sqrid/mappos.rs::camefrom_into_path"]}
{"id": "C45", "title": "Path reconstruction reports Loop only for loops", "statement": "camefrom_into_path returns Err(Loop) exactly when following the map from dest really cycles without reaching orig.", "quantifier": "all grid dimensions, all direction maps, all orig / dest pairs", "why_tests_cant": "needs a path longer than width^2, i.e. tall grids, which are never tested", "anchors": ["src/sqrid/mappos.rs::camefrom_into_path"]}
{"id": "C46", "title": "Breadth-first iteration yields exact distance levels", "statement": "The k-th vector yielded by bf_iter (k = 1, 2, ...) contains exactly the positions other than the origin whose shortest route from the origin under the movement function has k steps, each once, each with the direction leading back towards a position at distance k-1.", "quantifier": "all grid dimensions, origins, movement functions, both D values and all three set backends", "why_tests_cant": "arbitrary movement functions (graphs) and depths", "anchors": ["src/sqrid/bf.rs::BfIterator::new", "src/sqrid/bf.rs::BfIterator::next", "src/sqrid/bf.rs::bf_iter"]}
{"id": "C47", "title": "Breadth-first iteration terminates and is complete", "statement": "bf_iter always ends after finitely many vectors; flattened, it yields every position reachable from the origin (other than the origin) exactly once, then None for ever.", "quantifier": "all grid dimensions, origins, movement functions", "why_tests_cant": "arbitrary graphs; termination is not testable", "anchors": ["src/sqrid/bf.rs::BfIterator::next"]}
{"id": "C48", "title": "bfs_path returns a shortest path", "statement": "When bfs_path returns Ok((dest, path)), dest satisfies the goal, every step of path is a move allowed by the movement function, the walk from orig ends at dest, and no walk to any goal position other than the origin is shorter.", "quantifier": "all grid dimensions, origins, goal predicates, movement functions that move one step in the given direction, and the three backends", "why_tests_cant": "optimality compares with all possible walks", "anchors": ["src/sqrid/bf.rs::search_path", "src/sqrid/bf.rs::search_mapmov", "src/sqrid/bf.rs::bfs_path", "src/sqrid/bf.rs::bfs_path_hash", "src/sqrid/bf.rs::bfs_path_btree"]}
{"id": "C49", "title": "bfs_path finds a path whenever one exists", "statement": "bfs_path returns Err(DestinationUnreachable) exactly when no goal position can be reached, and Ok otherwise.", "quantifier": "all grid dimensions, origins, goal predicates and one-step movement functions", "why_tests_cant": "completeness over all graphs; failures need tall grids or a goal satisfied by the origin", "anchors": ["src/sqrid/bf.rs::search_path", "src/sqrid/bf.rs::BfIterator::new", "src/sqrid/mappos.rs::camefrom_into_path"]}
{"id": "C50", "title": "ucs_path returns a real path", "statement": "When ucs_path returns Ok(path), every step of path is a move allowed by the movement-cost function and the walk from orig ends at dest.", "quantifier": "all grid dimensions, origins, destinations, cost functions with one-step moves, D values and backends", "why_tests_cant": "arbitrary cost functions", "anchors": ["src/sqrid/ucs.rs::search_path", "src/sqrid/ucs.rs::search_mapmov", "src/sqrid/ucs.rs::UcsIterator"]}
{"id": "C51", "title": "ucs_path returns a lowest-cost path", "statement": "When ucs_path returns Ok(path), no walk from orig to dest has a lower total cost.", "quantifier": "all grid dimensions, origins, destinations and cost functions", "why_tests_cant": "optimality compares with all walks; every test uses cost 1", "anchors": ["src/sqrid/ucs.rs::search_path", "src/sqrid/ucs.rs::search_mapmov", "src/sqrid/ucs.rs::UcsIterator"]}
{"id": "C52", "title": "UCS iterator yields positions in cost order", "statement": "The UCS iterator first yields each reachable position in non-decreasing order of its true lowest cost from the origin, and at that moment its recorded cost is that lowest cost.", "quantifier": "all grid dimensions, origins and cost functions whose totals fit in usize", "why_tests_cant": "Dijkstra's invariant over arbitrary graphs", "anchors": ["src/sqrid/ucs.rs::UcsIterator"]}
{"id": "C53", "title": "ucs_path terminates and finds a path whenever one exists", "statement": "For costs whose totals fit in usize, ucs_path always returns, without panicking, Err(DestinationUnreachable) exactly when dest cannot be reached and Ok otherwise.", "quantifier": "all grid dimensions, origins, destinations and cost functions", "why_tests_cant": "termination and completeness over all graphs", "anchors": ["src/sqrid/ucs.rs::search_mapmov", "src/sqrid/ucs.rs::UcsIterator"]}
{"id": "C54", "title": "astar_path returns a real path", "statement": "When astar_path returns Ok(path), every step of path is a move allowed by the movement function and the walk from orig ends at dest.", "quantifier": "all grid dimensions, origins, destinations, one-step movement functions, D values and backends", "why_tests_cant": "arbitrary movement functions", "anchors": ["src/sqrid/astar.rs::search_path", "src/sqrid/astar.rs::search_mapmov", "src/sqrid/astar.rs::AstarIterator"]}
{"id": "C55", "title": "astar_path returns a shortest path", "statement": "When astar_path returns Ok(path), no walk from orig to dest is shorter.", "quantifier": "all grid dimensions, origins, destinations, one-step movement functions and both D values", "why_tests_cant": "the tests' mazes happen not to trigger the stale-frontier overwrite; diagonals are never tested", "anchors": ["src/sqrid/astar.rs::search_path", "src/sqrid/astar.rs::search_mapmov", "src/sqrid/astar.rs::AstarIterator"]}
{"id": "C56", "title": "astar_path terminates and finds a path whenever one exists", "statement": "astar_path always returns, without panicking, Err(DestinationUnreachable) exactly when dest cannot be reached and Ok otherwise.", "quantifier": "all grid dimensions, origins, destinations, one-step movement functions and both D values", "why_tests_cant": "termination and completeness over all graphs; the failures need diagonals with re-opened positions, or tall grids", "anchors": ["src/sqrid/astar.rs::search_mapmov", "src/sqrid/astar.rs::AstarIterator"]}
{"id": "C57", "title": "Search results do not depend on the storage backend", "statement": "bfs_path, astar_path and ucs_path give identical results with the Grid, HashMap and BTreeMap backends.", "quantifier": "all grid dimensions, origins, destinations / goals and movement functions", "why_tests_cant": "equality of outputs over all graphs", "anchors": ["src/sqrid/bf.rs::search_path_grid", "src/sqrid/bf.rs::search_path_hash", "src/sqrid/bf.rs::search_path_btree", "src/sqrid/astar.rs::search_path_grid", "src/sqrid/astar.rs::search_path_hash", "src/sqrid/astar.rs::search_path_btree", "src/sqrid/ucs.rs::search_path_grid", "src/sqrid/ucs.rs::search_path_hash", "src/sqrid/ucs.rs::search_path_btree"]}
{"id": "C58", "title": "Grid and Gridbool Display", "statement": "Displaying a grid never panics and prints, between two identical column-label blocks, one line per row holding the right-aligned row number, a space and the row's cells in order.", "quantifier": "all grid dimensions and contents", "why_tests_cant": "universal over dimensions; label width changes at powers of ten", "anchors": ["src/sqrid/grid.rs::display_fmt_helper", "src/sqrid/grid.rs::Display for Grid", "src/sqrid/gridbool.rs::Display for Gridbool"]}
{"id": "C59", "title": "Exact values of From<bool> and Default", "statement": "For a bounded integer type, from(false) and default() hold 0 and from(true) holds 1, whatever MIN and MAX are; they are in range exactly when MIN <= that number <= MAX.", "quantifier": "all bounded and builtin integer types", "why_tests_cant": "universal over the type's bounds", "anchors": ["src/sqrid/boundedint.rs::From<bool>", "src/sqrid/boundedint.rs::Default"]}
{"id": "C60", "title": "Exact behaviour of the signed conversion", "statement": "Pos::try_from((i32,i32)) reduces both coordinates modulo 65536 first: it is Ok exactly when both residues are inside the grid, and the position then holds the residues; otherwise Err(OutOfBounds).", "quantifier": "all grid dimensions and all pairs of 32-bit integers", "why_tests_cant": "2^64 input pairs per grid type", "anchors": ["src/sqrid/pos.rs::TryFrom<(i32, i32)>"]}
{"id": "C61", "title": "Exact behaviour of size_hint", "statement": "size_hint of every iterator over positions and directions stays the same after any number of next / next_back calls, with equal bounds: the total number of items of a fresh iterator or, for iter_range, the number of positions of the whole grid. The number of items really left is the number of a fresh iterator minus the calls made (at least 0).", "quantifier": "all grid types and all call sequences", "why_tests_cant": "universal over call sequences and dimensions", "anchors": ["src/sqrid/postrait.rs::PosTIter", "src/sqrid/postrait.rs::PosTIterRange", "src/sqrid/postrait.rs::PosTIterInX", "src/sqrid/postrait.rs::PosTIterInY", "src/sqrid/dir.rs::DirIter"]}
{"id": "C62", "title": "Exact behaviour of rectangle iteration at the last row", "statement": "When the rectangle given to iter_range touches the last row of the grid but not its last column, iter_range yields all positions of the rectangle except the bottom-right corner, row by row, and then stops.", "quantifier": "all position types and all such rectangles", "why_tests_cant": "universal over dimensions and rectangles", "anchors": ["src/sqrid/postrait.rs::PosTIterRange"]}
{"id": "C63", "title": "Exact behaviour of integer-tuple positions", "statement": "For integer-tuple positions of up to 32 bits width() and height() are MAX+1 while the constants WIDTH and HEIGHT are MAX-MIN; to_usize is y*(MAX+1)+x for non-negative coordinates and panics for any negative coordinate; iter_in_x / iter_in_y cover coordinates 0..=MAX. For 64- and 128-bit unsigned tuples width(), height() and to_usize panic, the constants are usize::MAX, and iter_in_x / iter_in_y are as for the others.", "quantifier": "all integer-tuple position types and all their positions", "why_tests_cant": "2^64 positions per type", "anchors": ["src/sqrid/postrait.rs::PosT for integer tuples", "src/sqrid/postrait.rs::PosT::width", "src/sqrid/postrait.rs::PosT::to_usize", "src/sqrid/postrait.rs::PosT::iter_in_x"]}
{"id": "C64", "title": "Exact text behaviour of directions", "statement": "Display prints the compass name (N, NE, E, ...); parsing that text back succeeds exactly for the four cardinal directions and fails with DirParseError for the diagonals; a character parses to a direction exactly when it is one of its documented spellings.", "quantifier": "all directions and all characters", "why_tests_cant": "universal over characters", "anchors": ["src/sqrid/dir.rs::Display for Dir", "src/sqrid/dir.rs::TryFrom<char>", "src/sqrid/dir.rs::FromStr"]}
{"id": "C65", "title": "Exact behaviour of Dir::next", "statement": "next::<true> turns by one eighth clockwise and is None exactly at NW; next::<false> turns by a quarter, is None exactly at W and panics exactly at NW. ALL8 lists the directions clockwise from N and ALL4 the cardinal ones.", "quantifier": "all directions", "why_tests_cant": "relation between constants, iteration and all directions", "anchors": ["src/sqrid/dir.rs::Dir::next", "src/sqrid/dir.rs::ALL8", "src/sqrid/dir.rs::ALL4"]}
{"id": "C66", "title": "Exact memory-safety condition of Grid access", "statement": "With any SIZE parameter at all, reading or writing a grid at a position is undefined behaviour exactly when the row-major index of that position is not below SIZE, and is an ordinary in-bounds access otherwise.", "quantifier": "all grid dimensions, all SIZE parameters, all positions", "why_tests_cant": "undefined behaviour cannot be asserted by a test; universal over SIZE", "anchors": ["src/sqrid/grid.rs::Grid::get", "src/sqrid/grid.rs::Grid::get_mut", "src/sqrid/grid.rs::Grid::_ASSERTS"]}
{"id": "C67", "title": "Exact behaviour of extend_from_vecvec", "statement": "extend_from_vecvec takes the given cells row by row with both coordinates reduced modulo 65536 and writes them until the first one outside the grid; reaching such a cell makes it return OutOfBounds, with the cells before it already written.", "quantifier": "all grid types, grids and nested vectors", "why_tests_cant": "universal over nested vectors, including ones with more than 65536 rows", "anchors": ["src/sqrid/grid.rs::Grid::extend_from_vecvec"]}
{"id": "C68", "title": "Gridbool's size assertion protects every position type", "statement": "For every position type, including integer tuples such as (u8, u8), a Gridbool whose WORDS passes the compile-time assertion can be read and written at every position without panicking.", "quantifier": "all position types accepted by Gridbool, all WORDS, all positions", "why_tests_cant": "needs the assertion for all types and sizes at once", "anchors": ["src/sqrid/gridbool.rs::Gridbool::_ASSERTS", "src/sqrid/gridbool.rs::Gridbool::get", "src/sqrid/gridbool.rs::Gridbool::set"]}
{"id": "C69", "title": "Exact behaviour of Gridbool rotations", "statement": "rotate_cw / rotate_cc move the value of every position by a quarter turn, except that in a square with an even number of columns the four central positions keep their values; rotate_cc always undoes rotate_cw and vice versa.", "quantifier": "all square dimensions and contents", "why_tests_cant": "universal over sizes and contents; the defect is confined to the four central cells of even squares", "anchors": ["src/sqrid/gridbool.rs::Gridbool::rotate_cw", "src/sqrid/gridbool.rs::Gridbool::rotate_cc"]}
{"id": "C70", "title": "Exact meaning of Gridbool equality", "statement": "Two Gridbools of the same type compare equal exactly when they hold the same value at every position and their spare bits (those past the last position) agree; spare bits are set by the constructors to their value and never changed by set, flips or rotations.", "quantifier": "all grid dimensions, word counts and contents", "why_tests_cant": "spare bits are not observable through the API except via equality", "anchors": ["src/sqrid/gridbool.rs::Gridbool", "src/sqrid/gridbool.rs::Gridbool::repeat", "src/sqrid/gridbool.rs::Gridbool::set"]}
{"id": "C71", "title": "Path reconstruction succeeds exactly within width * width moves", "statement": "camefrom_into_path returns Ok exactly when following the map from dest reaches orig within width * width moves (the path then has exactly that many steps), Err(Loop) exactly when width * width + 1 entries can be followed without meeting orig, and Err(InvalidMovement) in the remaining cases.", "quantifier": "all grid dimensions, all direction maps on any MapPos implementation, all orig / dest pairs", "why_tests_cant": "The bound depends on the grid shape and the whole map; the failing cases need long chains on narrow grids.", "anchors": ["src/sqrid/mappos.rs::camefrom_into_path"]}
{"id": "C72", "title": "Exact contents of the breadth-first vectors", "statement": "For any movement function, the k-th vector yielded by bf_iter contains, each once, exactly the positions at distance k, and additionally, for k = 1 only, the origin itself when some move leaves it in place; each comes with the reverse of a move from a position at distance k-1.", "quantifier": "all grid dimensions, origins, movement functions (also with jumps and moves that stay in place), both D values and all three set backends", "why_tests_cant": "Needs an invariant over all levels and arbitrary movement functions.", "anchors": ["src/sqrid/bf.rs::BfIterator", "src/sqrid/bf.rs::bf_iter"]}
{"id": "C73", "title": "Exact outcome of bfs_path", "statement": "bfs_path always returns: Err(DestinationUnreachable) exactly when no goal other than the origin can be reached, Ok with a path of n steps exactly when the nearest goal other than the origin is n <= width * width steps away, and Err(Loop) exactly when it is further.", "quantifier": "all grid dimensions, origins, goal predicates, one-step movement functions and the three backends", "why_tests_cant": "The failing shapes are long corridors on grids with more rows than columns.", "anchors": ["src/sqrid/bf.rs::search_path", "src/sqrid/bf.rs::search_mapmov", "src/sqrid/bf.rs::bfs_path", "src/sqrid/mappos.rs::camefrom_into_path"]}
{"id": "C74", "title": "Exact outcome of ucs_path", "statement": "For costs whose totals fit in usize, ucs_path always returns: Err(DestinationUnreachable) exactly when dest cannot be reached; otherwise Ok with a real path of at most width * width steps (empty when dest = orig) or, only on grids with more rows than columns and if more than width * width positions can be reached, Err(Loop).", "quantifier": "all grid dimensions, origins, destinations, one-step movement-cost functions, both D values and all three backends", "why_tests_cant": "Needs termination of the re-queueing loop and absence of cycles in the recorded directions for all cost functions.", "anchors": ["src/sqrid/ucs.rs::UcsIterator", "src/sqrid/ucs.rs::search_path", "src/sqrid/ucs.rs::search_mapmov", "src/sqrid/mappos.rs::camefrom_into_path"]}
{"id": "C75", "title": "Exact outcome of astar_path", "statement": "astar_path always returns: Err(DestinationUnreachable) exactly when dest cannot be reached; otherwise Ok with a real path of at most width * width steps (empty when dest = orig) or Err(Loop), the latter, when diagonals are off, only on grids with more rows than columns and if more than width * width positions can be reached.", "quantifier": "all grid dimensions, origins, destinations, one-step movement functions, both D values and all three backends", "why_tests_cant": "Needs termination and a cycle-freeness argument over all movement functions.", "anchors": ["src/sqrid/astar.rs::AstarIterator", "src/sqrid/astar.rs::search_path", "src/sqrid/astar.rs::search_mapmov", "src/sqrid/mappos.rs::camefrom_into_path"]}
{"id": "C76", "title": "astar_path with diagonals follows an open straight line", "statement": "With diagonals on, if the line from orig that moves each coordinate towards dest until it agrees is open, astar_path returns exactly that line (or Err(Loop) when it is longer than width * width), and no walk is shorter.", "quantifier": "all grid dimensions, origins, destinations, one-step movement functions with an open line, all three backends", "why_tests_cant": "Universal over grids and over everything off the line; the Manhattan heuristic overestimates with diagonals, so general A* theory does not apply.", "anchors": ["src/sqrid/astar.rs::AstarIterator", "src/sqrid/astar.rs::astar_path"]}
{"id": "C77", "title": "A* iterator yields the reachable positions", "statement": "The A* iterator ends and yields exactly the reachable positions; when it yields a position its recorded cost is the length of a walk to it, and without diagonals that of a shortest one, new positions coming in non-decreasing order of that length plus the Manhattan distance to the destination.", "quantifier": "all grid dimensions, origins, destinations, one-step movement functions, both D values and all three backends", "why_tests_cant": "Needs an invariant over the whole frontier for arbitrary movement functions.", "anchors": ["src/sqrid/astar.rs::AstarIterator"]}
{"id": "C78", "title": "Pos Display is faithful", "statement": "A position is displayed as (x,y) with the usual decimal numerals of its coordinates, and different positions are displayed differently.", "quantifier": "all grid dimensions and positions", "why_tests_cant": "universal over pairs of positions", "anchors": ["src/sqrid/pos.rs::Pos"]}
{"id": "C79", "title": "Gridbool prints as a rectangle", "statement": "Without padding, every line of a displayed Gridbool has the same length (digits of the last row number, a space, and one character per column), there are as many lines as rows plus twice the digits of the last column number, and the cells add no line breaks.", "quantifier": "all grid dimensions, word counts and contents", "why_tests_cant": "alignment depends on the number of digits of every row and column number", "anchors": ["src/sqrid/gridbool.rs::Gridbool", "src/sqrid/grid.rs::display_fmt_helper"]}
{"id": "C80", "title": "Grid-backed searches stay within their storage", "statement": "bfs_path, ucs_path and astar_path (the grid-backed variants) only access memory inside their arrays, whatever position type the caller picks: with SIZE at least the number of positions they return what the hash variants return.", "quantifier": "all position types, SIZE and WORDS parameters, origins, destinations and movement functions", "why_tests_cant": "The position type is independent of Sqrid's SIZE, Grid's compile-time assertion is never evaluated and the accesses are unchecked; a test suite only uses matching types.", "anchors": ["src/sqrid/bf.rs::bfs_path", "src/sqrid/ucs.rs::ucs_path", "src/sqrid/astar.rs::astar_path", "src/sqrid/grid.rs::Grid"]}
{"id": "C81", "title": "Breadth-first iteration on any position type", "statement": "bf_iter_hash and bf_iter_btree work on every position type, including tuples of signed and 128-bit integers: they end, and the k-th vector holds exactly the positions at distance k, each once, with a direction back to distance k-1.", "quantifier": "all position types, origins, movement functions (one-step or not) and both D values", "why_tests_cant": "Universal over movement functions and over position types too large to enumerate.", "anchors": ["src/sqrid/bf.rs::bf_iter_hash", "src/sqrid/bf.rs::bf_iter_btree", "src/sqrid/bf.rs::BfIterator"]}
{"id": "C82", "title": "Exact outcome of bfs_path_hash on any position type", "statement": "On any position type bfs_path_hash and bfs_path_btree return Err(DestinationUnreachable) exactly when no goal other than the origin can be reached. Otherwise they panic exactly when the coordinate distances to the found goal are not values of the coordinate types or (max x + 1)^2 + 1 does not fit in usize; else they return a shortest path, or Err(Loop) if it is longer than (max x + 1)^2. In particular every successful search on tuples of u32, u64 or u128 panics.", "quantifier": "all position types, origins, goal predicates and one-step movement functions", "why_tests_cant": "The panics depend on coordinate distances and on the type's maximum; tests only use small u8/u16 grids.", "anchors": ["src/sqrid/bf.rs::bfs_path_hash", "src/sqrid/bf.rs::bfs_path_btree", "src/sqrid/mappos.rs::camefrom_into_path", "src/sqrid/postrait.rs::manhattan", "src/sqrid/postrait.rs::width"]}
{"id": "C83", "title": "Exact outcome of ucs_path_hash on any position type", "statement": "On any position type, with costs that fit in usize along every walk without repeated positions, ucs_path_hash and ucs_path_btree return Err(DestinationUnreachable) exactly when dest cannot be reached, and panic exactly when it can but the sizes needed to go back (coordinate distances, (max x + 1)^2 + 1) are not representable. Otherwise they return a real path of at most (max x + 1)^2 moves - a lowest-cost one if costs depend on the position entered - or, only if more than (max x + 1)^2 positions can be reached, Err(Loop).", "quantifier": "all position types, origins, destinations, one-step movement-cost functions and both D values", "why_tests_cant": "Signed and wide tuple types give unboundedly many cases; tests use small u16 grids", "anchors": ["src/sqrid/ucs.rs::ucs_path_hash", "src/sqrid/ucs.rs::search_path", "src/sqrid/mappos.rs::camefrom_into_path", "src/sqrid/postrait.rs::manhattan"]}
{"id": "C84", "title": "Exact outcome of astar_path_hash on any position type", "statement": "On any position type where the Manhattan distances from the reachable positions to dest can be computed, astar_path_hash and astar_path_btree return Err(DestinationUnreachable) exactly when dest cannot be reached, panic exactly when it can but the sizes needed to go back are not representable, and otherwise return a real path of at most (max x + 1)^2 moves or Err(Loop); without diagonals Err(Loop) only if more than (max x + 1)^2 positions can be reached. If the distances from some reachable positions cannot be computed, the only other outcome is a panic; if that of a neighbour of orig cannot, they panic at once.", "quantifier": "all position types, origins, destinations, one-step movement functions and both D values", "why_tests_cant": "The panics depend on relations between coordinates and type bounds that no finite test set covers", "anchors": ["src/sqrid/astar.rs::astar_path_hash", "src/sqrid/astar.rs::search_path", "src/sqrid/mappos.rs::camefrom_into_path", "src/sqrid/postrait.rs::manhattan"]}
{"id": "C85", "title": "First yields of UcsIterator are lowest-cost", "statement": "The first time UcsIterator yields a position other than the origin, the direction in the pair leads back to a position it has already yielded, along a real move that lies on a lowest-cost walk: the first yields form a tree of lowest-cost walks, for any costs that cannot overflow.", "quantifier": "all grids, origins, movement-cost functions with affordable costs, both D values and all storage backends; every number of next() calls", "why_tests_cant": "The iterator may yield a position several times and overwrite records; which yield is optimal depends on the whole execution over arbitrary costs.", "anchors": ["src/sqrid/ucs.rs::UcsIterator", "src/sqrid/ucs.rs::ucs_iter", "src/sqrid/ucs.rs::next"]}
{"id": "C86", "title": "First yields of AstarIterator are shortest", "statement": "Without diagonals, the first time AstarIterator yields a position other than the origin, the direction in the pair leads back to a position it has already yielded, at a distance from the origin that is exactly one less: the first yields form a tree of shortest walks.", "quantifier": "all grids, origins, destinations, one-step movement functions and storage backends; every number of next() calls", "why_tests_cant": "Depends on the consistency of the Manhattan estimate over arbitrary obstacle layouts and on the heap order of ties.", "anchors": ["src/sqrid/astar.rs::AstarIterator", "src/sqrid/astar.rs::astar_iter", "src/sqrid/astar.rs::next"]}
{"id": "C87", "title": "The three searches agree", "statement": "With one constant cost for every move, ucs_path finds shortest paths and its outcome is exactly that of bfs_path towards the same destination: both find paths of the same length, or both report DestinationUnreachable, or both report Loop. astar_path reports DestinationUnreachable exactly when bfs_path does, and whenever it finds a path bfs_path finds one at most as long.", "quantifier": "all grids, origins, destinations, one-step movement functions, positive constant costs whose sum over the grid fits in usize, both D values and all pairs of storage backends", "why_tests_cant": "Three independent implementations with different data structures are compared over all obstacle layouts.", "anchors": ["src/sqrid/bf.rs::bfs_path", "src/sqrid/ucs.rs::ucs_path", "src/sqrid/ucs.rs::search_path", "src/sqrid/astar.rs::astar_path", "src/sqrid/astar.rs::search_path"]}
{"id": "C88", "title": "bfs_path lengths are a metric", "statement": "If every move can be undone by a move, bfs_path from p to q and from q to p find paths of the same length or fail in the same way. The path found from p to r is never longer than those found from p to q and from q to r together.", "quantifier": "all grids, positions, one-step movement functions (reversible ones for symmetry), both D values and all storage backends", "why_tests_cant": "Relates several searches over arbitrary obstacle layouts.", "anchors": ["src/sqrid/bf.rs::bfs_path", "src/sqrid/bf.rs::search_path"]}
{"id": "C89", "title": "Search distances on the open grid", "statement": "With pos_dir_add_ok as movement function (no obstacles), bfs_path, ucs_path with a constant cost and astar_path all find paths of exactly |dx|+|dy| moves without diagonals and max(|dx|,|dy|) moves with diagonals, unless that is more than (max x + 1)^2, when all three return Err(Loop).", "quantifier": "all grids, all pairs of different positions, both D values, all storage backends and positive constant costs", "why_tests_cant": "Unbounded grid sizes; A* is not optimal in general, so its optimality here needs an argument over all its executions.", "anchors": ["src/sqrid/bf.rs::bfs_path", "src/sqrid/ucs.rs::ucs_path", "src/sqrid/astar.rs::astar_path", "src/sqrid/posdir.rs::pos_dir_add_ok"]}
{"id": "C90", "title": "More moves never hurt bfs_path", "statement": "If bfs_path finds a path with one movement function, it finds one at most as long with any movement function that allows at least the same moves.", "quantifier": "all grids, origins, destinations, pairs of one-step movement functions ordered by inclusion, both D values and all storage backends", "why_tests_cant": "Compares two executions over arbitrary obstacle layouts.", "anchors": ["src/sqrid/bf.rs::bfs_path", "src/sqrid/bf.rs::search_path"]}
{"id": "C91", "title": "Map returned by breadth-first search", "statement": "bf::search_mapmov returns DestinationUnreachable exactly when no position other than the origin satisfies the predicate and can be reached; otherwise it returns a nearest such position at distance n and a map with an entry for it, for every position at distance 1..n-1, possibly for some at distance n, and for no other; each entry is the reverse of a real move, and following entries from any recorded position at distance j returns to the origin in exactly j steps.", "quantifier": "all storages (Grid/Gridbool, HashMap/HashSet, BTree), grid dimensions, move functions, origins, predicates and positions", "why_tests_cant": "the map has an entry per position, and the set of mazes and predicates is unbounded", "anchors": ["src/sqrid/bf.rs::search_mapmov", "src/sqrid/bf.rs::BfIterator::next", "src/sqrid/mappos.rs::MapPos::get"]}
{"id": "C92", "title": "Map returned by uniform-cost search", "statement": "ucs::search_mapmov returns DestinationUnreachable exactly when the destination cannot be reached; otherwise the map has an entry for the destination and for every position that costs less to reach than the destination, and none for positions that cost more; every entry other than the origin's is the reverse of a real move from a recorded position, and following entries always returns to the origin. If the cost of a move depends only on the position entered, every entry lies on a lowest-cost walk.", "quantifier": "all storages, dimensions, origins, destinations and move functions whose sums of costs fit usize", "why_tests_cant": "stale queue entries overwrite map entries in ways only particular cost assignments show", "anchors": ["src/sqrid/ucs.rs::search_mapmov", "src/sqrid/ucs.rs::UcsIterator"]}
{"id": "C93", "title": "Map returned by A* search", "statement": "astar::search_mapmov returns DestinationUnreachable exactly when the destination cannot be reached; otherwise the map has an entry for the destination, all recorded positions are reachable, and every entry other than the origin's is the reverse of a real move from a recorded position. Without diagonals, following entries always returns to the origin, every position with distance + Manhattan distance to the destination below the length of a shortest path is recorded, and none with it above.", "quantifier": "all storages, dimensions, origins, destinations and move functions", "why_tests_cant": "which positions A* visits depends on the whole maze; tests see single runs", "anchors": ["src/sqrid/astar.rs::search_mapmov", "src/sqrid/astar.rs::AstarIterator"]}
{"id": "C94", "title": "Grid histories", "statement": "Starting from Grid::repeat(v), any sequence of set, extend, flip_h, flip_v and (on square grids) rotate_cw and rotate_cc calls leaves, at every position, exactly the value that the same sequence of changes leaves in a plain function from positions to values: set and extend change only the named positions, flip_h moves (x,y) to (XMAX-x,y), flip_v to (x,YMAX-y), rotate_cw to (W-y,x), rotate_cc to (y,W-x). iter lists these values in index order.", "quantifier": "all element types, dimensions, initial values and finite sequences of calls", "why_tests_cant": "sequences of calls are unbounded; an error may need two operations to show", "anchors": ["src/sqrid/grid.rs::Grid::set", "src/sqrid/grid.rs::Grid::flip_h", "src/sqrid/grid.rs::Grid::flip_v", "src/sqrid/grid.rs::Grid::rotate_cw", "src/sqrid/grid.rs::Grid::rotate_cc", "src/sqrid/grid.rs::Grid::extend", "src/sqrid/grid.rs::Grid::iter"]}
{"id": "C95", "title": "Gridbool is indistinguishable from Grid<bool>", "statement": "Starting from repeat(v), any sequence of set, set_iter_t/set_iter_f (extend), flip_h, flip_v, rotate_cw and rotate_cc calls leaves a Gridbool and a Grid<bool> with the same value at every position; iter, iter_pos, iter_t and iter_f agree with it.", "quantifier": "all dimensions, numbers of words accepted by the size assertion, initial values and finite sequences of calls", "why_tests_cant": "bit and word boundaries multiply with the number of operations", "anchors": ["src/sqrid/gridbool.rs::Gridbool::set", "src/sqrid/gridbool.rs::Gridbool::set_iter_t", "src/sqrid/gridbool.rs::Gridbool::set_iter_f", "src/sqrid/gridbool.rs::Gridbool::flip_h", "src/sqrid/gridbool.rs::Gridbool::flip_v", "src/sqrid/gridbool.rs::Gridbool::rotate_cw", "src/sqrid/gridbool.rs::Gridbool::rotate_cc", "src/sqrid/gridbool.rs::Gridbool::iter", "src/sqrid/gridbool.rs::Gridbool::iter_pos", "src/sqrid/gridbool.rs::Gridbool::iter_t", "src/sqrid/gridbool.rs::Gridbool::iter_f", "src/sqrid/grid.rs::Grid::set", "src/sqrid/grid.rs::Grid::iter", "src/sqrid/grid.rs::Grid::iter_pos"]}
{"id": "C96", "title": "Grid flips and rotations form the dihedral group", "statement": "On a Grid, flip_h and flip_v commute and together move (x,y) to (XMAX-x,YMAX-y). On a square Grid this equals two quarter turns in either sense; rotate_cw then flip_h, flip_h then rotate_cc, flip_v then rotate_cw and rotate_cc then flip_v all transpose the grid; the four other mixed pairs all mirror it at the other diagonal.", "quantifier": "all element types, dimensions and grids", "why_tests_cant": "equalities between grids of every size and content", "anchors": ["src/sqrid/grid.rs::Grid::flip_h", "src/sqrid/grid.rs::Grid::flip_v", "src/sqrid/grid.rs::Grid::rotate_cw", "src/sqrid/grid.rs::Grid::rotate_cc"]}
{"id": "C97", "title": "Uniform-cost search accepts every usize cost", "statement": "ucs_path finds a path to every reachable destination without panicking, whatever usize costs the moves have.", "quantifier": "all storages, dimensions, origins, destinations and cost functions with values in usize", "why_tests_cant": "needs the extreme values of a 64-bit type and sums over whole walks", "anchors": ["src/sqrid/ucs.rs::search_path", "src/sqrid/ucs.rs::UcsIterator", "src/sqrid/ucs.rs::UcsIterator::new"]}
{"id": "C98", "title": "Grid array views", "statement": "The inner array of a Grid (into_inner, as_array, as_ref) holds the cells row by row: the slot of (x, y) is number y*width+x. Writing that slot through as_array_mut / as_mut changes that cell and no other; an index outside 0..width*height panics. Replacing every value v seen by iter_mut by f(v) replaces every cell by f of it.", "quantifier": "all grid-like position types, all Grids of the right size, all positions, values and functions f", "why_tests_cant": "the correspondence between slots and positions has to hold for every width and every position; tests look at one or two sizes", "anchors": ["src/sqrid/grid.rs::into_inner", "src/sqrid/grid.rs::as_array", "src/sqrid/grid.rs::as_array_mut", "src/sqrid/grid.rs::iter_mut", "src/sqrid/grid.rs::as_ref", "src/sqrid/grid.rs::as_mut"]}
{"id": "C99", "title": "Gridbool bitmap layout", "statement": "In the inner bitmap of a Gridbool (into_inner, as_inner) cell number i = y*width+x is bit 31 - i%32 of word i/32. Replacing word k through as_inner_mut sets the cells of that word to its bits and leaves all others alone.", "quantifier": "all grid-like position types, all Gridbools with enough words, all positions, all words", "why_tests_cant": "bit layouts go wrong at word boundaries and on widths that do not divide 32; tests check a few literals", "anchors": ["src/sqrid/gridbool.rs::into_inner", "src/sqrid/gridbool.rs::as_inner", "src/sqrid/gridbool.rs::as_inner_mut", "src/sqrid/gridbool.rs::byte_bit", "src/sqrid/gridbool.rs::get"]}
{"id": "C100", "title": "Grid order is row-major lexicographic", "statement": "Comparing two Grids (derived Ord) gives the comparison of their cells at the first position, in row-major order, at which the cells do not compare equal, and Equal if there is none.", "quantifier": "all grid-like position types, all pairs of Grids, all orderings of the element type", "why_tests_cant": "the derived order depends on the storage layout; only a proof relates it to positions for all sizes", "anchors": ["src/sqrid/grid.rs::Grid"]}
{"id": "C101", "title": "Gridbool order is row-major lexicographic", "statement": "Comparing two Gridbools (derived Ord) gives, with false before true, the comparison of the values at the first position in row-major order at which they differ, and Equal if they agree everywhere.", "quantifier": "all grid-like position types, all pairs of Gridbools of the same type", "why_tests_cant": "the order of u32 words agrees with the order of cells only because bits are stored most significant first, and spare bits interfere; tests do not compare Gridbools", "anchors": ["src/sqrid/gridbool.rs::Gridbool", "src/sqrid/gridbool.rs::byte_bit", "src/sqrid/gridbool.rs::repeat"]}
{"id": "C102", "title": "Texts of bounded integers and errors", "statement": "A bounded integer is printed, by Display and by Debug, as the decimal numeral of its value without leading zeros, after a minus sign if negative, so different values are printed differently. Different errors have different one-line messages.", "quantifier": "all values of all bounded integer types, all errors", "why_tests_cant": "injectivity quantifies over all pairs of values", "anchors": ["src/sqrid/boundedint.rs::fmt", "src/sqrid/error.rs::fmt"]}
{"id": "C103", "title": "Searches commute with mirroring and turning the map", "statement": "If a map is mirrored left-right or top-bottom, or a square map turned by a quarter, then bfs_path from the moved origin to the moved goals finds a path of the same length or fails in the same way; ucs_path, on grids with at least as many columns as rows and with costs that depend on the position entered, succeeds on both maps with the same total cost or on none.", "quantifier": "all backends, all dimensions, all movement functions and costs, all origins, goals, and sequences of mirrorings and turns", "why_tests_cant": "the searches treat the directions in a fixed order, so the paths differ between a map and its mirror image; that lengths and costs never do needs the optimality proof for all maps", "anchors": ["src/sqrid/bf.rs::search_path", "src/sqrid/ucs.rs::search_path"]}
{"id": "C104", "title": "Scaling all costs does not change the path of ucs_path", "statement": "Multiplying every cost returned by the closure by the same positive factor (for example to change units, or to make room for fractions) gives exactly the same result from ucs_path, in the same number of steps, on every backend, as long as both sets of costs can be summed in a usize.", "quantifier": "every grid type and backend, diagonals on or off, every closure staying inside the grid, every positive factor, every origin and destination, every number of steps", "why_tests_cant": "the order of the queue depends on sums of costs over all explored routes and on ties between them; examples cannot show that no tie is broken differently", "anchors": ["src/sqrid/ucs.rs::search_path", "src/sqrid/ucs.rs::UcsIterator"]}
{"id": "C105", "title": "Searches consult their closures only at reachable positions", "statement": "The result of bfs_path, ucs_path and astar_path depends on the user's closures only at positions reachable from the origin and in the directions the search may use: changing go (or the goal test) anywhere else, even to something that leaves the grid, changes nothing, on any backend, for every position type.", "quantifier": "every position type, backend, pair of closures agreeing on the reachable positions and allowed directions, origin, destination or goal test, number of steps", "why_tests_cant": "a test compares the results for particular pairs of closures; the claim is about all pairs that agree where it matters", "anchors": ["src/sqrid/bf.rs::search_path", "src/sqrid/ucs.rs::search_path", "src/sqrid/astar.rs::search_path"]}
{"id": "C106", "title": "How far from the lowest cost ucs_path can be", "statement": "If of two moves into the same position one never costs more than hi/lo times the other, the path returned by ucs_path costs at most hi/lo times the lowest possible cost. In particular it has the lowest cost when the cost only depends on the position entered.", "quantifier": "every grid type and backend, diagonals on or off, every closure of single steps inside the grid whose costs can be summed, every ratio, every origin and destination", "why_tests_cant": "the bound holds for the worst combination of routes competing in the queue, which no finite set of maps exhibits", "anchors": ["src/sqrid/ucs.rs::search_path", "src/sqrid/ucs.rs::search_mapmov", "src/sqrid/ucs.rs::UcsIterator"]}
{"id": "C107", "title": "ucs_path with costs 10 and 14 returns a lowest-cost path", "statement": "On a grid with walls where straight moves cost 10 and diagonal moves 14, ucs_path::<true> returns a path of the lowest cost.", "quantifier": "every grid type and backend, every set of walls, origin and destination", "why_tests_cant": "the smallest maps on which it goes wrong are rare; the usual tests on open grids and small mazes pass", "anchors": ["src/sqrid/ucs.rs::search_path", "src/sqrid/ucs.rs::search_mapmov", "src/sqrid/ucs.rs::UcsIterator"]}
{"id": "C108", "title": "Results of ucs_path and astar_path do not depend on the queue's internals", "statement": "BinaryHeap leaves the arrangement of its elements unspecified; the searches are nevertheless deterministic: any priority queue that pops an element than which no other is greater gives exactly the same result, because the order on (cost, position, direction) leaves no ties between different entries.", "quantifier": "every queue satisfying the contract of new, push and pop, every backend, position type, closure (also with wrong or negative costs), origin and destination, number of steps", "why_tests_cant": "a test runs one implementation of the queue; a new release of the standard library may arrange its heap differently", "anchors": ["src/sqrid/ucs.rs::search_path", "src/sqrid/ucs.rs::UcsIterator", "src/sqrid/astar.rs::search_path", "src/sqrid/astar.rs::AstarIterator"]}
{"id": "C109", "title": "The queue behind the searches meets its contract", "statement": "The binary heap used for the frontier (append and sift up; move the last element to the root, sink it to the bottom and sift it up) always pops a greatest entry and neither loses nor duplicates one, so that ucs_path and astar_path behave as if the frontier were searched exhaustively.", "quantifier": "every sequence of pushes and pops, of any length, of any entries, also equal ones; every search", "why_tests_cant": "heap-order bugs appear only for particular shapes and orders of insertion", "anchors": ["src/sqrid/ucs.rs::UcsIterator", "src/sqrid/astar.rs::AstarIterator"]}
{"id": "C110", "title": "Uniform-cost search does a bounded amount of work", "statement": "With costs that never overflow, the iterator of uniform-cost search is exhausted after at most 1 + 4n items (1 + 8n with diagonals), where n is the number of positions reachable from the origin; and search_path finishes within as many turns of its loop, however large the costs are.", "quantifier": "for all grid dimensions, storage implementations, affordable cost functions, origins, destinations, and any list containing the reachable positions", "why_tests_cant": "A test can time some grids; it cannot show that no cost function makes the search revisit positions again and again, e.g. proportionally to the costs.", "anchors": ["src/sqrid/ucs.rs::UcsIterator", "src/sqrid/ucs.rs::search_path"]}
{"id": "C111", "title": "A* does a bounded amount of work", "statement": "For every movement function that moves by single steps inside the grid, the A* iterator is exhausted after at most 1 + 4n items without diagonals, and n*n items with diagonals (where the Manhattan heuristic is inconsistent and positions can be reopened), n being the number of reachable positions; and search_path finishes within as many turns of its loop.", "quantifier": "for all grid dimensions, storage implementations, movement functions, origins, destinations, and any list containing the reachable positions", "why_tests_cant": "Reopening of positions under an inconsistent heuristic can be exponential in general; that it is at most quadratic here is a statement about all mazes.", "anchors": ["src/sqrid/astar.rs::AstarIterator", "src/sqrid/astar.rs::search_path"]}
{"id": "C112", "title": "Exact behaviour of Gridbool histories", "statement": "Starting from any Gridbool, any sequence of set, set_iter_t, set_iter_f, flip_h, flip_v, rotate_cw and rotate_cc (with valid positions) succeeds, and the contents afterwards are those of a picture treated the same way, except that the four central cells of squares with an even number of columns stay in place when rotating; spare bits never change. Hence two Gridbools made from the same Gridbool compare equal exactly if their contents are the same, and are ordered by the first cell, row by row, where they differ.", "quantifier": "for all dimensions, initial Gridbools (with any spare bits) and sequences of modifications", "why_tests_cant": "Histories are unboundedly many; tests exercise single operations on small squares with fresh Gridbools.", "anchors": ["src/sqrid/gridbool.rs::Gridbool::set", "src/sqrid/gridbool.rs::Gridbool::set_iter_t", "src/sqrid/gridbool.rs::Gridbool::set_iter_f", "src/sqrid/gridbool.rs::Gridbool::flip_h", "src/sqrid/gridbool.rs::Gridbool::flip_v", "src/sqrid/gridbool.rs::Gridbool::rotate_cw", "src/sqrid/gridbool.rs::Gridbool::rotate_cc"]}
{"id": "C113", "title": "Gridbool flips and rotations form the dihedral group", "statement": "As for Grid: rotating twice clockwise equals rotating twice counter-clockwise equals flipping both ways; rotate_cw then flip_h, flip_h then rotate_cc, flip_v then rotate_cw and rotate_cc then flip_v all transpose the grid; the other four combinations all give the anti-transpose.", "quantifier": "for all square dimensions and all Gridbools", "why_tests_cant": "The laws relate compositions of operations for every size; a test checks one size and one content.", "anchors": ["src/sqrid/gridbool.rs::Gridbool::flip_h", "src/sqrid/gridbool.rs::Gridbool::flip_v", "src/sqrid/gridbool.rs::Gridbool::rotate_cw", "src/sqrid/gridbool.rs::Gridbool::rotate_cc"]}
{"id": "C114", "title": "Breadth-first search solves mazes kept in a Gridbool", "statement": "With the closure that moves to neighbours inside the grid where a Gridbool of walls is false, and a goal that is one position other than the origin: bfs_path returns DestinationUnreachable exactly if no sequence of neighbouring free cells leads from the origin to the goal; otherwise it returns a path whose visited cells are such a sequence of the fewest cells, or Err(Loop) exactly if every such sequence has more than width*width cells.", "quantifier": "for all grid dimensions, storage types, Gridbools of walls, origins and goals, with and without diagonals", "why_tests_cant": "Relates three modules (positions, Gridbool, breadth-first search) for every maze; a test tries a handful of mazes.", "anchors": ["src/sqrid/bf.rs::search_path", "src/sqrid/bf.rs::search_path_grid", "src/sqrid/bf.rs::search_path_hash", "src/sqrid/bf.rs::search_path_btree", "src/sqrid/gridbool.rs::Gridbool::get"]}
{"id": "C115", "title": "Flood fill", "statement": "Collecting the positions of all the vectors yielded by bf_iter, in such a maze, into a Gridbool gives true exactly at the cells other than the origin which can be reached from it through free neighbouring cells.", "quantifier": "for all grid dimensions, storage types, Gridbools of walls and origins, with and without diagonals", "why_tests_cant": "The set of reachable cells of every maze cannot be enumerated; the result depends on the whole run of the iterator and on the collected bits.", "anchors": ["src/sqrid/bf.rs::BfIterator", "src/sqrid/gridbool.rs::Gridbool"]}
{"id": "C116", "title": "Distance map", "statement": "Storing the 1-based index of the vector of bf_iter in which a cell appears, at that cell of a Grid with extend, gives at every reachable cell other than the origin the number of cells of a shortest sequence leading to it, and leaves the grid as it was elsewhere.", "quantifier": "for all grid dimensions, storage types, Gridbools of walls, origins and initial grids, with and without diagonals", "why_tests_cant": "A statement about minimality over all routes in all mazes.", "anchors": ["src/sqrid/bf.rs::BfIterator", "src/sqrid/grid.rs::Grid"]}
{"id": "C117", "title": "Reversing the array of a Grid is a half turn", "statement": "Reversing the inner array obtained by as_mut (as in the README) moves the value at (x, y) to (XMAX - x, YMAX - y), and gives the same grid as flip_h followed by flip_v, in either order.", "quantifier": "for all dimensions and contents of a Grid", "why_tests_cant": "The README shows one example; the statement is about every size and content.", "anchors": ["src/sqrid/grid.rs::Grid::as_array_mut", "src/sqrid/grid.rs::Grid::flip_h", "src/sqrid/grid.rs::Grid::flip_v"]}
{"id": "C118", "title": "Paths visit no position twice", "statement": "Every path returned by camefrom_into_path, whatever is in the map, and hence every path returned by bfs_path, ucs_path and astar_path, visits no position twice (the origin included) and its last position is the destination.", "quantifier": "for all grid types, storage types, contents of the map, movement functions and costs, origins and valid destinations", "why_tests_cant": "The contents of the map are arbitrary, and whether directions closing a loop can be emitted before the loop is detected depends on the whole walk.", "anchors": ["src/sqrid/mappos.rs::camefrom_into_path", "src/sqrid/bf.rs::search_path", "src/sqrid/ucs.rs::search_path", "src/sqrid/astar.rs::search_path"]}
{"id": "C119", "title": "How far A* paths stray", "statement": "Without diagonals, along a path returned by A* the distance of a position from the origin plus its Manhattan distance to the destination never decreases. Hence the path stays among the positions where this sum is at most the length n of the shortest walk, its length differs from n by an even number, and it is less than the number of these positions.", "quantifier": "for all grid dimensions, storage types, movement functions that move by single steps inside the grid, origins and destinations", "why_tests_cant": "A* does not always return a shortest path (C55); what remains true of every path in every maze is a statement about all runs.", "anchors": ["src/sqrid/astar.rs::AstarIterator", "src/sqrid/astar.rs::search_path"]}
{"id": "C120", "title": "Uniform-cost search and A* solve mazes kept in a Gridbool", "statement": "With the closure that moves to neighbours inside the grid where a Gridbool of walls is false: ucs_path with a constant positive cost returns DestinationUnreachable exactly if no sequence of free neighbouring cells leads to the destination, and otherwise such a sequence of the fewest cells, or Err(Loop) exactly if all have more than width*width cells. A* without diagonals returns DestinationUnreachable exactly in the same case, every path it returns is such a sequence without repetitions (and of the fewest cells if some sequence is as short as the Manhattan distance), and it returns a path whenever there is one if the grid is at least as wide as high.", "quantifier": "for all grid dimensions, storage types, Gridbools of walls, origins and destinations, and constant costs whose multiple by the number of cells fits a usize", "why_tests_cant": "Relates three modules for every maze; a test tries a handful of mazes.", "anchors": ["src/sqrid/ucs.rs::search_path", "src/sqrid/ucs.rs::search_path_grid", "src/sqrid/ucs.rs::search_path_hash", "src/sqrid/ucs.rs::search_path_btree", "src/sqrid/astar.rs::search_path", "src/sqrid/astar.rs::search_path_grid", "src/sqrid/astar.rs::search_path_hash", "src/sqrid/astar.rs::search_path_btree", "src/sqrid/gridbool.rs::Gridbool::get"]}
{"id": "C121", "title": "Exactly which shortest path breadth-first search returns", "statement": "Order paths by the first directions in which they differ, clockwise from north. The path returned by bfs_path is the first of all the shortest paths to nearest goals (which determines it), and bf_iter yields the positions of each level in the order of the first shortest walks to them, each with the direction back along that walk.", "quantifier": "for all grid types, storage types, movement functions that move by single steps inside the grid (for the iterator: any movement function inside the grid that does not keep the origin in place), origins and goal functions, with and without diagonals", "why_tests_cant": "A minimum over all shortest paths of all movement functions, which depends on the order in which positions and directions are processed at every level.", "anchors": ["src/sqrid/bf.rs::BfIterator", "src/sqrid/bf.rs::search_path", "src/sqrid/bf.rs::search_mapmov", "src/sqrid/mappos.rs::camefrom_into_path", "src/sqrid/dir.rs::Dir::iter"]}
{"id": "C122", "title": "The calls made of a user's closures", "statement": "If the answers of the closures depend on their arguments only, but the closures may also change a state or panic, the searches give the results they give with pure closures, after exactly these calls: bf_iter and bfs_path call the movement function on each direction, clockwise from north, around the origin and then around each position of one vector after the other, and bfs_path then the goal function on each position of the vector, up to the first goal; ucs_path and astar_path call the movement function around each position yielded by the iterator, up to and including the destination. A panic in a call is a panic of the search. Breadth-first search makes no call twice, unless a move keeps the origin in place.", "quantifier": "for all grid types, storage types, states of the outside world, closures with effects, origins, destinations and goals", "why_tests_cant": "Closures with counters, caches, logs or panics are common, and the sequence of calls is a property of the whole run of every search.", "anchors": ["src/sqrid/bf.rs::BfIterator", "src/sqrid/bf.rs::search_path", "src/sqrid/bf.rs::search_mapmov", "src/sqrid/bf.rs::bf_iter", "src/sqrid/ucs.rs::UcsIterator", "src/sqrid/ucs.rs::search_path", "src/sqrid/astar.rs::AstarIterator", "src/sqrid/astar.rs::search_path"]}
{"id": "C123", "title": "Searches survive any closures", "statement": "Whatever the closures answer, even if the answers change from call to call or contradict each other, bfs_path, astar_path and ucs_path always return if the calls of the closures return (for ucs_path: unless a sum of costs overflows, which cannot happen if no cost times the number of cells exceeds usize::MAX; then too it ends, with a panic). They return DestinationUnreachable, InvalidMovement, Loop, or a path that leads from the origin to the destination without leaving the grid, without visiting a position twice, and without diagonals if these are off.", "quantifier": "for all grid types, storage types, states of the outside world, closures with effects that answer any positions of the type, origins and destinations, with and without diagonals", "why_tests_cant": "Closures with shared state (caches, random numbers, moving obstacles) give every possible sequence of answers; tests use consistent ones.", "anchors": ["src/sqrid/bf.rs::BfIterator", "src/sqrid/bf.rs::search_path", "src/sqrid/bf.rs::search_mapmov", "src/sqrid/ucs.rs::UcsIterator", "src/sqrid/ucs.rs::search_path", "src/sqrid/astar.rs::AstarIterator", "src/sqrid/astar.rs::search_path", "src/sqrid/mappos.rs::camefrom_into_path"]}
{"id": "C124", "title": "Uniform-cost search in release builds", "statement": "In a build without overflow checks, where sums of costs wrap around: when ucs_path returns in a debug build it returns the same; with any usize costs it returns, without panic, and the result is a path along which one can move, Err(Loop), or DestinationUnreachable, the latter only if there is no path unless the cost of some walk wraps around to exactly usize::MAX. When sums overflow it can return Err(Loop) although there is a path, and paths that are not of lowest cost.", "quantifier": "for all grid types, storage types, movement functions that move by single steps inside the grid, usize costs, origins and destinations, with and without diagonals", "why_tests_cant": "Overflowing sums are rare in tests, and tests run in debug builds; termination with sums that wrap around is not obvious.", "anchors": ["src/sqrid/ucs.rs::UcsIterator", "src/sqrid/ucs.rs::search_path", "src/sqrid/ucs.rs::search_mapmov", "src/sqrid/mappos.rs::camefrom_into_path"]}
{"id": "C125", "title": "How far A* strays with diagonals", "statement": "With diagonals, until the A* iterator yields the destination, every position that it yields, other than the origin, is one for which the distance from the origin plus the Manhattan distance to the destination is less than twice the distance k of the destination from the origin. Hence all positions of a path returned by A* with diagonals are among these, and the path is not longer than their number.", "quantifier": "for all grid types, storage types, movement functions that move by single steps inside the grid, origins and destinations", "why_tests_cant": "With diagonals the Manhattan estimate is not a lower bound and A* returns paths that are not shortest (C55); a bound on every such path is a statement about all runs.", "anchors": ["src/sqrid/astar.rs::AstarIterator", "src/sqrid/astar.rs::search_path"]}
{"id": "C126", "title": "Exactly which path uniform-cost search returns, and the moves of A*", "statement": "A position is settled when the search first takes it out of its queue, in order of lowest costs and, at equal costs, of later positions (by columns) first. With positive costs, a path is returned by ucs_path exactly if it has at most width*width moves, leads from the origin to the destination without passing the origin again, and enters each position q from the position settled first among all those from which q can be entered at a cost, from the origin, that comes no later in this order than the lowest cost of the destination; there is only one such path. With costs that may be zero this holds up to ties of costs. Without diagonals the same holds up to ties of A*, with the distance plus the Manhattan distance to the destination instead of the cost.", "quantifier": "for all grid types, storage types, movement functions that move by single steps inside the grid with costs whose sums fit a usize, origins and destinations, with and without diagonals", "why_tests_cant": "The exact reason why C51 and C55 fail: a position is entered by the move that was found first, not by the cheapest one. A characterisation of the result for all inputs.", "anchors": ["src/sqrid/ucs.rs::UcsIterator", "src/sqrid/ucs.rs::search_path", "src/sqrid/ucs.rs::search_mapmov", "src/sqrid/astar.rs::AstarIterator", "src/sqrid/astar.rs::search_path", "src/sqrid/mappos.rs::camefrom_into_path"]}
{"id": "C127", "title": "Searches on targets with another usize", "statement": "On targets with a usize of 16, 32 or 64 bits, in builds with and without overflow checks: bfs_path and astar_path give the results they give with 64 bits if the square of the width plus one, the number of positions plus width and height, and four times the greatest Manhattan distance fit into usize (and the bits of a Gridbool can be counted), and so does ucs_path if costs can be summed. If only the square of the width does not fit, as with 65536 columns and 32 bits, a search that finds a path panics in a build with overflow checks; without them it returns the path if it is shorter than the square of the width plus one, wrapped around (which is 1 for 65536 columns and 32 bits), and otherwise reports a loop. A search that finds no path reports that.", "quantifier": "for all targets, grid types, storage types, movement functions that stay inside the grid, costs, origins and destinations, with and without diagonals", "why_tests_cant": "Tests run on one target, usually with 64 bits and overflow checks; the grids for which the numbers do not fit are large.", "anchors": ["src/sqrid/mappos.rs::camefrom_into_path", "src/sqrid/postrait.rs::PosT::to_usize", "src/sqrid/postrait.rs::PosT::width", "src/sqrid/postrait.rs::PosT::manhattan", "src/sqrid/grid.rs::Grid::get", "src/sqrid/grid.rs::Grid::get_mut", "src/sqrid/gridbool.rs::Gridbool::get", "src/sqrid/gridbool.rs::Gridbool::set_t", "src/sqrid/ucs.rs::UcsIterator", "src/sqrid/ucs.rs::search_path", "src/sqrid/astar.rs::AstarIterator", "src/sqrid/astar.rs::search_path", "src/sqrid/bf.rs::search_path"]}
{"id": "C128", "title": "A map placed anywhere gives the same paths", "statement": "If a map (a movement function on a grid) is placed somewhere in another grid, of any size and storage, bfs_path, ucs_path and astar_path return the same directions there, to the destination as placed, provided the path has no more moves than the square of that grid's width; they report DestinationUnreachable if they do so on the original map; and ucs_path panics by overflow of costs there if it does so on the original one. In particular results depend neither on the size of the grid nor on positions outside the map.", "quantifier": "for all pairs of grid types, storage types, placements (up, down, left or right), movement functions that stay inside the grid, costs, origins, destinations and goals, with and without diagonals", "why_tests_cant": "The order in which positions are examined depends on comparing coordinates and on the storage; that neither the placement nor the size matters is a relation between two runs on every map.", "anchors": ["src/sqrid/bf.rs::BfIterator", "src/sqrid/bf.rs::search_path", "src/sqrid/ucs.rs::UcsIterator", "src/sqrid/ucs.rs::search_path", "src/sqrid/astar.rs::AstarIterator", "src/sqrid/astar.rs::search_path", "src/sqrid/mappos.rs::camefrom_into_path", "src/sqrid/pos.rs::Pos"]}
{"id": "C129", "title": "Hash storage with any hasher", "statement": "What a bounded integer, position, direction, Gridbool or Grid hands to a hasher is equal for two values exactly if they are equal (for a Grid: if that holds of its items and they hand over equally much), so equal values have equal hashes. A HashSet or HashMap of positions, as a table with open addressing, tombstones and growth, answers any sequence of SetPos and MapPos operations like a set and a map, however badly the hasher spreads the positions; the table always keeps an empty slot on every probing sequence, so that lookups end. Hence bfs_path_hash, ucs_path_hash and astar_path_hash return the same results for every hasher and every random seed.", "quantifier": "for all hashers, probing orders that examine every slot once, position types, sequences of operations, movement functions that stay inside the type, costs, origins, destinations and goals, with and without diagonals", "why_tests_cant": "std seeds its hasher at random in each process, so a test runs with a few of the 2^128 seeds; collisions and equal tags are rare with it.", "anchors": ["src/sqrid/setpos.rs::SetPos", "src/sqrid/mappos.rs::MapPos", "src/sqrid/pos.rs::Pos", "src/sqrid/dir.rs::Dir", "src/sqrid/grid.rs::Grid", "src/sqrid/gridbool.rs::Gridbool", "src/sqrid/bf.rs::bfs_path_hash", "src/sqrid/ucs.rs::ucs_path_hash", "src/sqrid/astar.rs::astar_path_hash"]}
{"id": "C130", "title": "Debug output tells values apart", "statement": "With {:?} and {:#?}, two directions, errors, positions, paths or search results (Result of a path, or of a position and a path) print the same text only if they are equal, and so do two Gridbools of one type, and two Grids if their items do and print texts without blanks, commas, parentheses and brackets in their words. A Dir prints its compass name, a Pos prints Pos((x, y)) with its coordinates in decimal (each on a line of its own with {:#?}).", "quantifier": "for all values (coordinates, paths and grids of any size), both formats, and any printed form of the position type", "why_tests_cant": "Derived output is nested to any depth and lists have any length; that no two values share a text is a statement about all pairs.", "anchors": ["src/sqrid/dir.rs::Dir", "src/sqrid/error.rs::Error", "src/sqrid/pos.rs::Pos", "src/sqrid/grid.rs::Grid", "src/sqrid/gridbool.rs::Gridbool", "src/sqrid/boundedint.rs::boundedint_type_create"]}
{"id": "C131", "title": "Searches with storage of the user's own", "statement": "The generic searches bf::search_path, ucs::search_path and astar::search_path, and the iterators, give the same results with any types implementing SetPos and MapPos as with std's, provided that no sequence of calls tells the types from a set and from maps of positions; of a set only new values, insert and contains count, so that a type whose remove panics will do. The same holds of camefrom_into_path with any map filled by calls of set.", "quantifier": "for all storage types that act as sets and maps, position types, movement functions that stay inside the type, costs, origins, destinations and goals, with and without diagonals", "why_tests_cant": "The traits are public, so users can implement them; tests use the three storage types of the crate. That nothing else of a type matters is a statement about all implementations.", "anchors": ["src/sqrid/setpos.rs::SetPos", "src/sqrid/mappos.rs::MapPos", "src/sqrid/mappos.rs::camefrom_into_path", "src/sqrid/bf.rs::BfIterator", "src/sqrid/bf.rs::search_path", "src/sqrid/ucs.rs::UcsIterator", "src/sqrid/ucs.rs::search_path", "src/sqrid/astar.rs::AstarIterator", "src/sqrid/astar.rs::search_path"]}
{"id": "C132", "title": "B-tree storage stays balanced and gives the same results", "statement": "A BTreeSet or BTreeMap of positions, as a tree of nodes with at most 11 entries that split, merge and pass entries to their neighbours, answers any sequence of SetPos and MapPos operations like a set and a map, without access outside the entries of a node. Its entries in order are always those of the sorted list; all leaves are at one depth h, with h = 0 or 2 * 6^h at most the number of entries plus one, so lookups take logarithmic time. bfs_path_btree, ucs_path_btree and astar_path_btree return on such trees what they return on sorted lists.", "quantifier": "for all position types, sequences of operations (insertions, removals, lookups) of any length, movement functions that stay inside the type, costs, origins, destinations and goals, with and without diagonals", "why_tests_cant": "Splits, merges and loans depend on the order of all operations so far; trees of several levels need hundreds of positions, and rare cases of rebalancing need special orders.", "anchors": ["src/sqrid/setpos.rs::SetPos", "src/sqrid/mappos.rs::MapPos", "src/sqrid/bf.rs::bfs_path_btree", "src/sqrid/ucs.rs::ucs_path_btree", "src/sqrid/astar.rs::astar_path_btree"]}
{"id": "C133", "title": "Breadth-first paths stay the same when planned again", "statement": "bfs_path returns exactly the first of the shortest walks to goals other than the origin (in the order of directions, move by move), if it is not longer than width*width moves. Hence planning again at any position of the path gives the rest of it, and planning again before every move leads along the same path; searching for a position of the path gives the path up to there; and closing any moves and dropping any goals that the path does not use leaves it the same.", "quantifier": "for all grid types, storage types, movement functions that move by single steps inside the grid, origins (not themselves goals, for planning again) and goals, with and without diagonals; for all positions of the path", "why_tests_cant": "Ties between shortest walks are everywhere in a grid; that they are broken the same way from every position of every path relates runs on infinitely many maps.", "anchors": ["src/sqrid/bf.rs::BfIterator", "src/sqrid/bf.rs::search_path", "src/sqrid/mappos.rs::camefrom_into_path", "src/sqrid/dir.rs::Dir"]}
{"id": "C134", "title": "Planning again before every move arrives", "statement": "Going to a destination by calling ucs_path or astar_path again before every move, and taking the first move of the answer, arrives there, on a path no longer and no dearer than the one planned at first.", "quantifier": "for all grid types, storage types, movement functions that move by single steps inside the grid, positive costs, origins and destinations, with and without diagonals", "why_tests_cant": "Each call can break ties or overestimate in another way; whether the sequence of calls makes progress is a statement about unboundedly many runs on a map.", "anchors": ["src/sqrid/ucs.rs::UcsIterator", "src/sqrid/ucs.rs::search_path", "src/sqrid/astar.rs::AstarIterator", "src/sqrid/astar.rs::search_path", "src/sqrid/mappos.rs::camefrom_into_path"]}
{"id": "C135", "title": "Searches without overflow checks", "statement": "Whatever a search returns in a build with overflow checks it also returns in one without. Without them a search on any position type (tuples of any integers included) reports DestinationUnreachable exactly if there is no way; else it finds a path (shortest for bfs, of lowest cost for ucs if costs depend on the position entered) and returns it if its length is less than width*width+1 wrapped around, else it reports Loop; it panics exactly if the sizes needed to go back do not exist. In particular, on a 64-bit target with tuples of u32 every search for a position other than the origin that can be reached reports Loop.", "quantifier": "for all targets (16, 32 and 64 bits), position types, storage types (hash and B-tree for the outcomes), movement functions that move by single steps inside the type, sums of costs within usize, origins, destinations and goals, with and without diagonals", "why_tests_cant": "Tests run with overflow checks and on small grids; the wrapped limit only shows with types of 2^32 columns or on small targets, in release builds.", "anchors": ["src/sqrid/mappos.rs::camefrom_into_path", "src/sqrid/postrait.rs::PosT", "src/sqrid/bf.rs::search_path", "src/sqrid/ucs.rs::search_path", "src/sqrid/astar.rs::search_path"]}
{"id": "C136", "title": "Positions and grids on targets with another usize", "statement": "On a target with 16-, 32- or 64-bit usize, built with or without overflow checks, every function of the position types, of Grid and of Gridbool that computes with usize gives the result of a 64-bit build with overflow checks -- the same value, error or panic -- as long as usize can hold the number of positions (for making a Gridbool, also the number of bits of its words; for the macros, also the number of positions plus 31): dimensions, indices, size hints, distances, rotations of positions; access, lines, iteration, flips, rotations, conversion from vectors, extension and Display of Grid; access, iteration, flips, rotations, collection and Display of Gridbool; the sizes of grid_create!, gridbool_create! and sqrid_create!; and, where the square of the width fits as well, camefrom_into_path on any map.", "quantifier": "every target, overflow checks or not, every grid-like position type, every grid (also of a wrong size) and every argument inside the type", "why_tests_cant": "Tests run on one 64-bit machine in one profile; small targets (wasm32, 16-bit microcontrollers) are not run at all.", "anchors": ["src/sqrid/postrait.rs::PosT", "src/sqrid/grid.rs::Grid", "src/sqrid/gridbool.rs::Gridbool", "src/sqrid/base.rs::sqrid_create"]}
{"id": "C137", "title": "Sizes and indices of wide position types with and without overflow checks", "statement": "For any position type whose greatest coordinates are usize values: without overflow checks width(), height(), dimensions(), to_usize() and the four size hints are the true numbers modulo 2 to the bits of usize (so the iterator over all (u32, u32) announces no items in a 64-bit release build, and all (u64, u64) of a column have one index); with overflow checks they are the true numbers, or a panic where these do not fit. tryfrom_usize() gives in both builds exactly the position with that index, or OutOfBounds if there is none, while the width is a usize value, and panics in both builds if the width is one more than usize::MAX. A greatest coordinate that is no usize value is a panic in every build. Rotating an integer tuple without overflow checks never panics: negative coordinates are mirrored among themselves, and rotate_cw() and rotate_cc() undo each other.", "quantifier": "every target, overflow checks or not, every position type with such bounds, every position with coordinates from 0 and every index", "why_tests_cant": "Overflow needs types with 2^32 columns or more, and the two profiles differ; tests use small types in the debug profile.", "anchors": ["src/sqrid/postrait.rs::PosT", "src/sqrid/postrait.rs::PosTIter", "src/sqrid/postrait.rs::PosTIterRange", "src/sqrid/postrait.rs::PosTIterInX", "src/sqrid/postrait.rs::PosTIterInY"]}
{"id": "C138", "title": "Integer ranges with bounds in either order", "statement": "BoundedIntIterator::new(lo, hi) with lo <= hi delivers lo to hi from both ends like a double-ended queue. With lo > hi it is not empty: next() counts from lo up to the greatest value of the type and next_back() from hi down to the least one, each regardless of the other.", "quantifier": "for all integer types of the crate (builtin and bounded), all pairs of bounds and all sequences of next and next_back", "why_tests_cant": "Any interleaving of calls at any pair of bounds; no test passes bounds in the wrong order.", "anchors": ["src/sqrid/boundedint.rs::BoundedIntIterator"]}
{"id": "C139", "title": "Ranges of positions with corners in the wrong order", "statement": "iter_range(a, b) with a to the right of b and not below it delivers the column of a from its row down to the row of b (without the last row of the type, unless a is in the last column); with a below b it delivers just a, or nothing when a is in the last row, not in the last column and not to the left of b.", "quantifier": "for all position types and all pairs of corners that are not in order", "why_tests_cant": "The result depends on the borders of the type; tests pass corners in order.", "anchors": ["src/sqrid/postrait.rs::PosTIterRange", "src/sqrid/postrait.rs::PosT::iter_range"]}
{"id": "C140", "title": "Rows and columns of any position type", "statement": "iter_in_x and iter_in_y start at coordinate 0, whatever the least coordinate of the type is. They deliver exactly the row or column if coordinates start at 0, and otherwise the part from 0 (for types whose coordinates are all above 0: not the row or column).", "quantifier": "for all position types and all rows and columns", "why_tests_cant": "Quantifies over types with bounds of either sign, which no test has.", "anchors": ["src/sqrid/postrait.rs::PosTIterInX", "src/sqrid/postrait.rs::PosTIterInY", "src/sqrid/postrait.rs::PosT::iter_in_x", "src/sqrid/postrait.rs::PosT::iter_in_y"]}
{"id": "C141", "title": "Iterators that have ended stay ended", "statement": "An iterator over positions or integers or a search iterator (BfIterator, UcsIterator, AstarIterator) that has returned None returns None ever after, in whatever state it is; the search iterators do so without calling the closure of the user again and with their state unchanged.", "quantifier": "for all iterators of the crate, position types, storage types, states and closures", "why_tests_cant": "Rust does not promise this of iterators; it is a statement about all states and unboundedly many later calls.", "anchors": ["src/sqrid/boundedint.rs::BoundedIntIterator", "src/sqrid/postrait.rs::PosTIter", "src/sqrid/postrait.rs::PosTIterRange", "src/sqrid/postrait.rs::PosTIterInX", "src/sqrid/postrait.rs::PosTIterInY", "src/sqrid/bf.rs::BfIterator", "src/sqrid/ucs.rs::UcsIterator", "src/sqrid/astar.rs::AstarIterator"]}
{"id": "C142", "title": "Geometry on any position type", "statement": "On a position type with any least and greatest coordinates: flips subtract from the greatest coordinate, and panic if the result is no coordinate, so they mirror the type exactly if coordinates start at 0; rotations, width, to_usize and tryfrom_usize compute with the greatest column and give the exact numbers or panic where these do not exist; manhattan is the sum of the coordinate differences unless a coordinate is negative or the sum too large, and never panics exactly if coordinates start at 0 and the greatest distance fits; next and prev go through the type in the order of iter; sides and corners are the positions that some (horizontal and vertical) step leaves.", "quantifier": "for all position types (bounds of any sign in any integer type), positions and indices", "why_tests_cant": "Quantifies over all bounds of all integer types; tests use a few types, all with coordinates from 0.", "anchors": ["src/sqrid/postrait.rs::PosT::flip_h", "src/sqrid/postrait.rs::PosT::flip_v", "src/sqrid/postrait.rs::PosT::rotate_cw", "src/sqrid/postrait.rs::PosT::rotate_cc", "src/sqrid/postrait.rs::PosT::manhattan", "src/sqrid/postrait.rs::PosT::width", "src/sqrid/postrait.rs::PosT::to_usize", "src/sqrid/postrait.rs::PosT::tryfrom_usize", "src/sqrid/postrait.rs::PosT::next", "src/sqrid/postrait.rs::PosT::prev", "src/sqrid/postrait.rs::PosT::is_side", "src/sqrid/postrait.rs::PosT::is_corner"]}
{"id": "C143", "title": "Grid and Gridbool of any position type and length", "statement": "Access to a Grid or Gridbool through a position with a negative coordinate or with no usize index panics. Past the end, a Gridbool panics and a Grid has undefined behaviour. Anything else is read and written like a variable of its own. So access to a Grid is safe for all positions exactly if it has at least (greatest column + 1) * (greatest row + 1) items. With tuples of u8, u16 or u32 a Grid of WIDTH * HEIGHT items is too small for the last position, and so is every Gridbool that can be made.", "quantifier": "for all position types, positions, grids of any length and values", "why_tests_cant": "Memory safety for all positions, sizes and types; the failing cases need types that tests do not use.", "anchors": ["src/sqrid/grid.rs::Grid::get", "src/sqrid/grid.rs::Grid::get_mut", "src/sqrid/grid.rs::_ASSERTS", "src/sqrid/gridbool.rs::Gridbool::get", "src/sqrid/gridbool.rs::Gridbool::set_t", "src/sqrid/gridbool.rs::Gridbool::set_f", "src/sqrid/gridbool.rs::Gridbool::repeat", "src/sqrid/gridbool.rs::_ASSERTS", "src/sqrid/postrait.rs::PosT::to_usize"]}
{"id": "C144", "title": "Paths of uniform-cost search do not depend on moves they do not use", "statement": "If the path returned by ucs_path has the lowest cost and every move costs something, then closing moves the path does not use or making them dearer leaves the result the same, and searching for any position on the path returns the path up to that position.", "quantifier": "for all position and storage types, direction modes, maps, origins, destinations and changes of the map", "why_tests_cant": "Relates the results for arbitrary pairs of maps; ties and queue order could break it for maps no test has.", "anchors": ["src/sqrid/ucs.rs::search_path", "src/sqrid/ucs.rs::UcsIterator"]}
{"id": "C145", "title": "Costs of uniform-cost search behave like distances", "statement": "When costs depend on the position entered: the path found from p to r is not dearer than the paths found from p to q and from q to r together; opening moves or lowering costs never makes the result dearer; and if moves can be undone, the ways there and back cost the same except for entering the two ends and are found or not found alike. Where that cannot hold, the search returns Loop, on types with more rows than columns.", "quantifier": "for all position and storage types, direction modes, maps, and positions", "why_tests_cant": "Relations between several searches over arbitrary maps.", "anchors": ["src/sqrid/ucs.rs::search_path", "src/sqrid/ucs.rs::UcsIterator"]}
{"id": "C146", "title": "Searches look no further than they need to", "statement": "The result of a search is the same on two maps that agree near the origin: for ucs_path at positions whose lowest cost is not above that of the destination, for bfs_path at positions not farther away than the nearest one wanted, and for astar_path at positions whose distance from the origin plus columns and rows to the destination is not above the distance of the destination (twice that with diagonals). What the map is like elsewhere makes no difference.", "quantifier": "for all position and storage types, direction modes, origins, destinations and pairs of maps", "why_tests_cant": "Quantifies over all pairs of maps that agree on a region.", "anchors": ["src/sqrid/ucs.rs::search_path", "src/sqrid/ucs.rs::UcsIterator", "src/sqrid/bf.rs::search_path", "src/sqrid/bf.rs::BfIterator", "src/sqrid/astar.rs::search_path", "src/sqrid/astar.rs::AstarIterator"]}
{"id": "C147", "title": "Shortest paths of A* search stay", "statement": "If the path that astar_path returns without diagonals is a shortest one, it is also returned when moves that it does not use are closed, and from every position on it the rest of it is returned, so planning again before every move leads along it. It is the one shortest path on which every position comes, in the order in which positions are looked at, before some position of any other walk of the same length between two positions of the path; if the columns and rows to the destination are also the distance, that path is always the one returned (on types with no more rows than columns).", "quantifier": "for all position and storage types, maps and sub-maps, origins, destinations and paths", "why_tests_cant": "Quantifies over all maps, all ways to close moves and all alternative walks.", "anchors": ["src/sqrid/astar.rs::search_path", "src/sqrid/astar.rs::AstarIterator"]}
{"id": "C148", "title": "Searches on position types with an order of their own", "statement": "ucs_path and astar_path keep their guarantees whatever Ord a position type implements, as the order of positions only chooses among entries of the frontier that have the same cost: uniform-cost search returns a path along allowed moves exactly when the destination can be reached (apart from panics and the loop error of the path reconstruction), of the lowest cost if the cost of a move depends only on the position entered; A* search returns a path exactly when there is one, and without diagonals a shortest one if some walk is as short as the columns and rows to the destination. This holds for any priority queue that pops an element of the lowest cost, and the algorithms of BinaryHeap are one even if the comparison of positions is no order at all.", "quantifier": "for all comparison functions, position and storage types, maps, costs, origins and destinations", "why_tests_cant": "Quantifies over all implementations of Ord, also inconsistent ones, and over all maps.", "anchors": ["src/sqrid/astar.rs::search_path", "src/sqrid/astar.rs::AstarIterator", "src/sqrid/ucs.rs::search_path", "src/sqrid/ucs.rs::UcsIterator", "src/sqrid/postrait.rs::PosT"]}
{"id": "C149", "title": "Iterators of searches on position types with an order of their own", "statement": "UcsIterator and AstarIterator yield the same kind of sequence whatever Ord a position type implements: every reachable position and no other, then None forever. Uniform-cost iteration yields new positions in the order of their lowest costs, has recorded the lowest cost of a position when it yields it, and the first direction given for a position leads back to a position yielded before on a path of the lowest cost. Without diagonals the same is true of A* iteration, with the lengths of paths as costs and the order of length plus Manhattan distance to the destination. Only the order among positions of equal cost depends on Ord.", "quantifier": "for all comparison functions, position and storage types, maps, costs, origins and destinations, and any number of calls", "why_tests_cant": "Quantifies over all implementations of Ord, also inconsistent ones, over all maps, and over unboundedly many calls.", "anchors": ["src/sqrid/astar.rs::AstarIterator", "src/sqrid/ucs.rs::UcsIterator", "src/sqrid/postrait.rs::PosT"]}
{"id": "C150", "title": "BTreeSet and BTreeMap storage on position types with an order of their own", "statement": "The BTreeSet and BTreeMap backends work with any lawful Ord of a position type: they answer every history of operations like a set and a map, and hold the same entries as with the order of sqrid's types, sorted by the order of the type, in balanced trees. bfs_path_btree returns what it returns with any other order; ucs_path_btree and astar_path_btree, where the order is used both by the trees and by the heap, find a path exactly when there is one (a path of the lowest cost, if the cost of a move depends only on the position entered; without diagonals a shortest one, if some walk is as short as the columns and rows to the destination). If the comparison violates the laws of Ord the operations of the trees still return, keep the trees balanced and never yield a position or item that was not put in, but a breadth-first search may run forever.", "quantifier": "for all total orders (and, for the last part, all comparison functions), histories of operations, maps, costs, origins and destinations", "why_tests_cant": "Quantifies over all implementations of Ord, all histories and all maps; a search that does not end cannot be observed by a test.", "anchors": ["src/sqrid/setpos.rs::SetPos", "src/sqrid/mappos.rs::MapPos", "src/sqrid/bf.rs::search_path_btree", "src/sqrid/ucs.rs::search_path_btree", "src/sqrid/astar.rs::search_path_btree"]}
{"id": "C151", "title": "Work and paths of searches on position types with an order of their own", "statement": "What the order of a position type is has no influence on the guarantees about work and paths: with any lawful Ord (and any storage that acts as maps, BTreeMap with that order included) the UCS iterator yields at most 1 + 4 positions per reachable position (1 + 8 with diagonals), the A* iterator at most 1 + 4 per reachable position (with diagonals, the square of their number), and the searches return after as many steps. No path visits a position twice, and every path ends at the destination, even if the order or the storage is not lawful. A* with diagonals returns the straight way to the destination if it is open. Changing the map beyond the cost of the destination leaves the result of UCS as it is, even between paths of equal cost; likewise for A*, beyond where steps taken plus columns and rows left exceed the distance of the destination (twice that with diagonals).", "quantifier": "for all position types, lawful orders, storage that acts as maps, maps, costs, origins and destinations", "why_tests_cant": "Quantifies over all implementations of Ord, all storage and all maps; bounds on work hold for every map size.", "anchors": ["src/sqrid/astar.rs::search_path", "src/sqrid/astar.rs::AstarIterator", "src/sqrid/ucs.rs::search_path", "src/sqrid/ucs.rs::UcsIterator"]}
{"id": "C152", "title": "The order of a position type decides which path is returned", "statement": "With a position type that has an order of its own, the queue of ucs and astar pops an element of the lowest cost and, among these, one with the greatest position in that order. With positive costs UCS therefore returns exactly one path, which can be told without running it: each of its moves comes from the position that is settled first (lowest cost, then greatest position) among those from which the next position can be entered no later than the destination is settled. Nothing else matters: any two queues that pop by the same order, with any storage that acts as maps, give the same result, path, error or panic, for UCS (zero costs included) and for A*. Whatever is popped first among equal costs, every move of a path comes from a position of the lowest cost (for A* without diagonals: the lowest estimate) among those from which the next position can be entered below the cost of the destination.", "quantifier": "for all position types, lawful orders, queues that pop by them, storage that acts as maps, maps, costs, origins and destinations", "why_tests_cant": "Quantifies over all implementations of Ord, all queues and storage and all maps; tells the path among all paths of equal cost.", "anchors": ["src/sqrid/astar.rs::search_path", "src/sqrid/astar.rs::AstarIterator", "src/sqrid/ucs.rs::search_path", "src/sqrid/ucs.rs::UcsIterator"]}
{"id": "C153", "title": "Exactly what the iterator of UCS yields, and in which order", "statement": "With positive costs, the iterator of UCS yields the origin and one element for each move that enters a position other than the origin from a position of lowest cost c, at cost c + w, unless a position settled earlier allows to enter it at the same or a lower cost; nothing else, and nothing twice. Each element comes with the direction back along its move. The elements come by increasing cost c + w and, at equal costs, the greatest position first; so the list can be told from the map and the costs alone, and positions that are entered at ever lower costs are yielded once for each of these, the lowest first. For the position types of the crate positions compare by x, then y; for others by the order of the type. Any two queues that pop by the same order, with any storage that acts as maps, make the iterators of UCS (zero costs included) and of A* yield the same elements and record the same costs after any number of calls.", "quantifier": "for all position types, lawful orders, queues that pop by them, storage, maps, costs, origins and numbers of calls of next", "why_tests_cant": "Tells a whole sequence of yields for all maps and costs, including which positions are yielded repeatedly; tests see single maps.", "anchors": ["src/sqrid/ucs.rs::UcsIterator", "src/sqrid/astar.rs::AstarIterator"]}
{"id": "C154", "title": "Paths of UCS on position types with an order of their own stay when planned again", "statement": "Let positions be compared by any lawful order of their type, every move cost something, and the path search_path of UCS returns have the lowest cost. Then closing moves that are not on the path, or making them dearer, does not change the result; searching from the origin for a position on the path returns the path up to there; searching from a position on the path for the destination returns the rest of it; so one who takes one move, plans again, and so on, walks exactly the path first planned. When the cost of a move depends only on the position entered, the path returned always has the lowest cost, so this needs no further condition.", "quantifier": "for all position types, lawful orders, queues that pop by them, storage, maps, positive costs, origins, destinations and positions on the path", "why_tests_cant": "Relates results of searches on different maps, or from different origins, for all maps and orders at once; a test compares two runs on one map.", "anchors": ["src/sqrid/ucs.rs::search_path"]}
{"id": "C155", "title": "Shortest paths of A* on position types with an order of their own", "statement": "Let positions be compared by any lawful order of their type, and the path search_path of A* returns without diagonals be a shortest one. Then searching again from a position on the path that is within the limits of search_path, on a map where moves that the rest of the path does not use may have been closed, returns the rest of the path; so one who takes one move, plans again, and so on, walks exactly the path first planned. Of the shortest paths, the one returned is the one whose positions come first: whenever a part of it can be replaced by as many other moves, each position inside the part comes before some position inside the replacement, by moves made plus distance left and then by the order of positions; only one path is like that. Where some walk approaches the destination with every move, search_path of A* returns this path and no other, and returns it exactly if its limits on the length of paths and on coordinates allow it.", "quantifier": "for all position types, lawful orders, queues that pop by them, storage, maps whose moves lead one step and reach finitely many positions, sub-maps, origins, destinations and positions on the path", "why_tests_cant": "Relates results of searches on different maps and from different origins, and singles out one of exponentially many shortest paths, for all maps and orders at once.", "anchors": ["src/sqrid/astar.rs::search_path"]}
