# Formal model of EusLisp in Rocq (Coq 8.16.1)

The source modelled is `/repo/lisp` (C kernel in `lisp/c`, Lisp library in `lisp/l`), in its
64-bit Linux configuration (`WORD_SIZE == 64`, no `RGC`).  The code is read as text; it is never
built or run.  All line numbers cited in the `.v` files refer to that tree.

## How the development is organised

For every area there are up to four files under `rocq/theories/`:

* `XModel.v`   - Gallina functions that follow the C or Lisp function they cite, branch by branch;
* `XSpec.v`    - the small independent specification (or it sits at the head of the proof file);
* `XProofs.v`  - lemmas;
* `XProperties.v` - only property theorems, each closed by `exact`, `Print Assumptions` under each,
  and Examples showing that the hypotheses are met by a concrete non-trivial case.

Conventions: a property whose full statement is true of the model gets a plain name; a property of
which only a part holds or is proved gets a `_partial` theorem; where the code violates the
property there is a `_refuted` theorem with a concrete witness, and the finding is listed below.

## Plan per property

| id | model | how it is proved |
|----|-------|------------------|
| C01 C02 | words as `Z` mod 2^64, tags as arithmetic on the low bits | case split on ranges, `lia`; witness for C02 |
| C03 C04 C06 C07 C08 C10 | digit lists `list Z` (little endian, 63-bit digits, signed top word) | induction on the digit list against the denotation in `Z` |
| C05 | the straight-line 64-bit code with wrap | range analysis, nonlinear arithmetic by hand; loop invariant for the division |
| C09 C11 | `PLUS`, `big_compare` over fixnum/bignum objects | composition of the above, witnesses for the failures |
| C12 C13 C14 | 64-bit shifts and masks | `Z.testbit` extensionality |
| C15 | digit generation and `readint` | induction on the number of digits |
| C16 C17 | cons cells in a heap `addr -> option (car, cdr)` | loop invariants, list-segment predicate, frame condition |
| C18 C54 C55 | list/vector loops of sequence.c | induction against `filter`-style specification |
| C19 | `merge-list`, and `sort` over an abstract qsort | permutation and sortedness; libc's qsort is represented by glibc's merge sort |
| C20 C21 | data trees with addresses, `equal`, `sxhash` | induction on trees / depth |
| C22 C23 | open addressing table with tombstones | probe-chain invariant, refinement to a finite map |
| C24 | the cons-queue | representation predicate over the heap |
| C25 C26 C27 | symbol vectors with tombstones | probe-chain invariant over histories; witnesses |
| C28 | property alists | refinement to a map |
| C29 | class table with index intervals and `recixobj` | invariant: the numbering is a preorder numbering of the class forest |
| C30 | per-thread method cache | invariant: each live entry equals the uncached search |
| C31 | chunk as a tree-shaped tiling, `splitheap`, `mergecell`, free lists | invariant over histories |
| C32 C33 | object graph, explicit mark stack, sweep | tri-colour invariant, fuel bound from a measure |
| C34 | graph copy with forwarding through a work vector | simulation |
| C35 C36 C37 | core language with `let`-special, `catch`, `block`, `unwind-protect`; a C-stack machine | refinement of the stack machine to a structured semantics |
| C38 | keyword parsing loops | induction on the argument list |
| C39 C40 C41 | character-level printer and reader | printer output followed by any continuation is consumed by the reader |
| C42 | `conv-bq` | induction on the template, evaluator as parameter of the theorem |
| C43 C44 C45 | streams with an oracle for `read`/`write` | invariant over operation histories |
| C46 C47 C48 C49 | packed words, row-major index, fill pointers | bit-level and arithmetic lemmas |
| C50 C51 C52 C53 | labelled transition systems, one step per atomic action | invariants over all interleavings |
| C56 | `expt` loop | loop invariant |
| C57 C58 C59 C60 | `MINUS`, `TIMES`, `QUOTIENT`, `ADD1`, `SUB1`, `ABS` | composition of the bignum lemmas; witnesses |
| C61 | `make-array`, `fill-initial-contents` | induction on the dimensions |
| C62 | thread pool, copying of the binding table | invariant over interleavings; a run as witness |
| C63 C64 C65 | `ratio_plus` ..., `makeratio`, ratio printer and reader | values in Q; bounds under which no word wraps |
| C66 C67 C68 C69 C70 | `string<` ..., `string=`, `string-trim`, `string-upcase` ..., `substringp` | lexicographic order, equality of parts, decomposition of the string, memory of strings |
| C71 | `pathname`, `namestring`, `merge-pathnames` | pieces between slashes; round trips both ways |
| C72 C73 | `escape-url`, `unescape-url`, `digits-string`, `sequential-file-name` | round trip on byte strings; digit values and lexicographic order |
| C74 | `read_sharp_hex`, `read_sharp_octal` | value of the digits; any continuation is left unread |
| C75 | `base64encode`, `base64decode` | RFC 4648 as a relation on groups of bytes; round trip |
| C76 | `mapcar` ... `reduce` | relational list of calls of an arbitrary effectful function |
| C77 | `quick-sort`, `qsort` | permutation, sortedness, termination |
| C78 | `list-permutation`, `permutation`, `combi` | the permutations and sublists of the standard library; counts |
| C79 | the compiler `comp.l`, `trans.l` and the C text it writes | an evaluator with environments, fuel and outcomes; simulation in both directions |
| C80 | `calendar-time`, `interval-time` | days counted one by one from January 1st, 1970; exact conditions |
| C81 | `prog1`, `psetq`, `case`, `loop`, `do`, `dolist`, `dotimes` | sets of outcomes, equivalence of expansion and specification; hygiene and fuel monotonicity of the evaluator |
| C82 | the interpreter's variables, blocks and local functions (`eval.c`, `specials.c`) | a meaning with environments and a growing store; simulation by a map from live frames to locations, with the same fuel, so in both directions |
| C83 | `depth-first` ... `branch-and-bound` (`search.l`) | routes in a graph; any fair order of the queue is sound, complete and ends on finite trees; levels, preorder and sorted queues for the particular orders |
| C84 | `list`, `append`, `subst`, `reverse`, `concatenate`, `mapcar`, `remove`, `sort`, the reader's lists ... (C code) | heap with explicit roots and an arbitrary collector at each allocation; weakest preconditions; reachability preserved; refinement to the pure functions of Seq* |
| C85 | `v+` ... `m*`, `transform`, `transpose`, `rotate-vector` (`matrix.c`) | memory of numbered vectors, arithmetic as a parameter; loop invariants with the part already written and the part still as it was |
| C86 | `lu-decompose`, `lu-solve`, `lu-determinant`, `simultaneous-equation`, `inverse-matrix` | any field; invariant: row p(i) of the matrix = what is left + multiples of the finished rows; determinant as any function with the laws of one |
| C87 | `rotation-matrix`, `rotate-vector`, `rotate-matrix`, `rotation-angle` (`matrix.c`) | Rodrigues' formula over any field, ring identities modulo the length of the axis and c²+s²=1; memory as for C85; `rotation-angle` over the real numbers with division by zero as an outcome |
| C88 | class `cascaded-coords` (`coordinates.l`) | a store of coordinates objects and frames with parent, descendants, worldcoords and changed; an invariant (finite depth, both links agree, flags are inherited, unflagged caches are right, no sharing) kept by every operation, hence for every history; products of rotations over any commutative ring |
| C89 | `subseq`, `copy-seq`, `reverse`, `nreverse`, `concatenate`, `coerce`, `fill`, `map`, `length`, `elt` (`sequence.c`) on vectors and arrays | the words of each kind of vector, `memcpy` as a partial copy, loops with an invariant on the elements; the specification is a list of values; `map` with a function on an arbitrary state |
| C90 | class `line-DDA`, `dda-line` (`dda.l`) | the object as a record stepped by `:next`; the error term as a closed form in the number of steps along and across, kept by both updates; the specification speaks of pixels and the true line only |
| C91 | class `line`, `farthest`, `farthest-pair` (`geopack.l`), `line-intersection`, `line-intersection3` (`intersection.c`) | real numbers; squared distances as quadratic forms about the point where both lines are at right angles to the difference; the least distance of segments by walking from an inner pair to the border of the unit square |
| C92 | `viewportclip`, `homo-viewport-clip` (`intersection.c`) | real numbers; the visible part as an interval of positions kept by every cut; the loop ends because each cut settles one of four planes |
| C93 | classes `bounding-box`, `plane` (`geopack.l`), `minimal-box`, `vmin`, `vmax`, `v<` (`matrix.c`) | real numbers; boxes as sets of points, the smallest box as a least upper bound; nearest points by Pythagoras |
| C94 | polygons: `:area`, `:centroid`, `:reset-normal`, `:set-convexp`, `:insidep` of convex ones (`geopack.l`) | real numbers; areas and moments as sums around the polygon that do not depend on the point they are taken from; the convex hull by a fan of triangles |
| C95, C96 | `floor`, `ceiling`, `round`, `truncate`, `mod`, `max`, `min` (`arith.c`), `eusfloat_to_big`, `big_to_float` (`big.c`) | a float is an integer times a power of two; rounding to 24, 51 and 53 digits is computed; the answers are specified as fractions |
| C97 | `format` (`lispio.c`), numbers in a field (`printer.c`) | control strings as the writing of a list of pieces; every control string is shown to be one; the loop consumes one piece at a time |
| C98 | quaternions (`quaternion.l`) | real numbers; Rodrigues' formula by the half-angle identities; products by polynomial identities |
| C99 | the infix translator (`mathtran.l`) | recursive descent against trees by mutual induction; invariant on the reference counts (a temporary is counted at least as often as what uses it); let* reconstruction |
| C100 | classes, slots and messages (`leo.c`, `common.l`) | invariant tying the class table to the history of definitions; superclass numbers decrease, so searches end; answers of SEND as a relation shown total and functional |
| C101 | line editor and history (`history.l`) | editor and screen against the text before and after the cursor, key by key; array of the history against the list of all commands, split into lost and kept |
| C102 | `rpy-angle`, `euler-angle` (`matrix.c`) | matrices made in place against products of turns about axes; angles by polar form of the arc tangent and the cofactors of a rotation |
| C103 | `quickhull` (`primt.l`) | lists built on the two sides of a segment against chains of farthest points; supporting lines at the ends of each segment as invariant; hull as intersection of half spaces; any normal, points of a plane in space |
| C104 | cyclic timers (`cyclic.l`) | two threads as a transition system, all interleavings; account of posts, calls, missed and pending intervals as invariant |
| C105 | planning of `defsystem` (`defsystem.l`) | plan built latest first, with the invariant that each step finds what it needs loaded; rank of modules for termination |
| C106 | `argument-parser` (`argparse.l`) | loop over the command line projected to one argument; closed form of its value; invariant of declarations (names and flags different) |
| C107 | `remove-colinears-from-circuit` (`primt.l`) | area swept as sum of vector products; the second corner that stays is on the line of the first two |
| C108 | `find-colinear-points` (`primt.l`) | loops as the set of ordered triples; the quotient decides the middle point, by the products of the two differences |

## Trusted base

* The kernel of Coq 8.16.1.  The independent checker `coqchk` accepts all modules.
* `Print Assumptions` answers "Closed under the global context" for every theorem named in
  `MANIFEST.json` except `C87_angle_partial`, `C87_half_partial`, `C87_angle_refuted` and all theorems of
  C91 to C94 and C98, which are about real numbers and use some or all of the axioms of the standard library's construction of them:
  `ClassicalDedekindReals.sig_not_dec`, `ClassicalDedekindReals.sig_forall_dec` and
  `FunctionalExtensionality.functional_extensionality_dep`; `C98_rotation_partial`, which needs the arc tangent, also uses
  `Classical_Prop.classic`.  None is added.  (The
  axioms that `coqchk` lists for the whole context, `Coq.ssr.ssrunder.*`, come with the standard
  library files that are loaded; no theorem depends on them.)
* That the Gallina definitions say what the cited C and Lisp lines do.  This is checked by reading,
  and by the mutation runs recorded in `seeded/LOG.jsonl`.
* What the models take from the platform:
  * signed 64-bit arithmetic wraps (gcc on the platform; where the C standard calls an operation
    undefined and gcc gives no promise - shift counts out of range, accesses outside an object,
    `1<<31` in `int` - the model has the outcome `UB` or `Undef`);
  * conversion to `int` keeps the low 32 bits as a signed number;
  * the C locale for `isupper`, `islower`;
  * `qsort` is glibc's merge sort; `memcpy` on overlapping ranges is undefined;
  * `malloc` returns fresh memory and never fails;
  * `write(2)` and `read(2)` answer anything the manual allows;
  * POSIX mutexes exclude; `pthread_cond_wait` gives up the mutex and sleeps in one step and may
    wake up for no reason; shared memory is sequentially consistent.

### What is modelled, and what is not

The header comment of each `*Model.v` gives the exact functions and line ranges, and every
definition repeats its own.  In short:

| files | modelled | left out |
|-------|----------|----------|
| Word, Big* | boxing (`makeint`, `intval`), all of `big.c` used by `+ - * / < 1+ 1- abs` with a fixnum operand, bignum `+`, `-`, `*`, bignum `/` by `div_big_big` | `big_quotient_remainder` (unused), floats, `vpush`/`vpop` protection |
| Ratio* | `+ - * /` `=` `/=` on fixnums and ratios, printing and reading a ratio | ratios mixed with bignums and floats |
| Str* | `strcmp` comparison, `string=`, `string-equal`, `substringp`, trimming, case conversion, `string` | foreign strings, locales other than C, numbers given to `string` |
| Path*, Url* | parsing, printing and merging of pathnames; URL escapes, `digits-string`, `sequential-file-name` | `url-pathname`, `truename`, `probe-file`, search in directories |
| Hex* | `#x`, `#o` | `#b`, `#nR` |
| Base64* | `base64encode`, `base64decode` | text with characters outside the alphabet |
| Map* | `mapcar`, `mapc`, `mapcan`, `maplist`, `mapcon`, `every`, `some`, `reduce` on lists | dotted lists, results shared by `nconc` |
| Comp* | the compiler and the translator for constants, variables, `setq`, `progn`, `if`, `cond`, `and`, `or`, `while`, `let`, `let*`, `block`, `return-from`, `tagbody`, `go`, calls, `null`, `eq`, `car`, `cdr`, type predicates, functions with required parameters; `bindspecial`, `unbindx`, `unwind` on the stack | closures, `flet`, `labels`, `catch`, `throw`, `unwind-protect`, object variables, declarations and typed arithmetic, unbound variables, methods, `*optimize*` and `*safety*` other than 2 and 1; collections (the stack is not a root here); the order in which C evaluates the operands of one expression does not matter for the expressions written |
| Time* | `year-day`, `secs-since-1970`, `:init`, `:make`, `:add`, `:subtract`, `:offset-day` of calendar and interval times | strings, parsing and printing of times; month names; float seconds |
| Macro*, CompEval | expansions of `when` ... `case` on the forms of CompLang | `declare`, places other than variables, `prog`, `classcase`, destructuring; gensym by hypothesis |
| Scope* | `getval`, `setval`, `getfunc`, `vbind`, `declare`, `bindspecial`, `unbindspecial`, `funlambda`, `ufuncall`, `unwind` and the special forms from `setq` to `return-from`, on a stack memory that keeps popped frames | one address per frame; `&optional`, `&rest`, `&key`, macros, closures as values, catch, unwind-protect, tagbody, methods, constants, threads, stack overflow |
| Search* | the five search functions and `extend-wing` over an arbitrary successor function, with `merge-list` and `sort` of Seq* | cells shared between paths (values here), depth of recursion, `edge-distance-eval` |
| Root* | which values of the list primitives are on the stack, in the argument block or in C variables only, `cons` pushing its arguments, `last` allocated object; collections at every allocation and inside called functions | the collector itself (Gc*), the conservative or per-thread roots, strings and numeric vectors, dotted and labelled lists in the reader, `&rest` of `mapcar` beyond equal or longer lists, destructive or non-local exits of called functions |
| Mat* | the loops of the vector and matrix functions of `matrix.c` over float vectors, with the size checks and the local array; coinciding arguments | the type checks; the integer and string branches of `v+`, `v-`; the creation of a new result (a result argument that is no operand); rounding (the operations are parameters); the angle functions (sine and cosine are arguments) |
| Lu* | decomposition with exchange of rows through the permutation vector, substitution in memory, the two Lisp functions; matrices as functions of row and column | the copy of the matrix (lu-decompose with a result); the type and size checks of the matrix arguments; rounding; `fabs` and the comparison (any comparison does) |
| Rot* | the formulas of `rotation-matrix`, `rotate-matrix` in the plane and `rotation-angle`, with the choice between its branches; `rotate-matrix` in Mat* | where `rotation-matrix` stores the elements (the result is not checked for its size); sine, cosine and arc tangent (the angle is given by its sine and cosine); rounding; infinity as distinct from not-a-number |
| Coord* | the methods of `cascaded-coords` named in C88, with sharing of coordinates objects, the flag `changed`, the slot `worldcoords` and both links of the tree; three dimensions; matrices and vectors as values of a commutative ring | rotation and position of an object are one unit (the code can share the matrix alone: `:orient` with `:parent` makes the matrix given the rotation itself); the loops of the products (C85) and rounding; the plane; `:update`, `:manager`, methods of `coordinates` alone, `:rotate` and `:orient` with an axis (C87), `:rpy-angle`, `:inverse-rotate-vector`, `:4x4`, `:difference-*`; the result of multiplying an object with itself in place is an arbitrary function |
| Vseq* | the functions named in C89 (`sequence.c` 110-517, 1018-1053), on the vectors of VecModel, displaced arrays and lists | lists are values (cells: C16, C17); no float vectors, no foreign strings, no subclasses of cons; sizes and indices are unbounded where the code uses `int`; `setelt` |
| Dda* | `line-DDA` and `dda-line` (`dda.l` 10-84) | slots hold unbounded integers (64-bit in the code: exact below 2^61); ellipses and circles |
| Geo* | class `line` methods about positions and distances (`geopack.l` 400-410, 443-532), `farthest`, `farthest-pair` (113-130), LINE-INTERSECTION, LINE-INTERSECTION3 (`intersection.c` 18-119) | floats are reals; three components; quotients by zero are a separate outcome; `:intersect-line`, `:coplanar`, `:boxtest`, printing |
| Clip* | VIEWPORTCLIP, HOMO-VIEWPORT-CLIP (`intersection.c` 122-236) | floats are reals; HOMO2NORMAL, HOMOGENIZE |
| Box* | class `bounding-box` (`geopack.l` 258-343), polygon `:boxtest` (897-899), `plane` `:init` (with a point), `:plane-distance`, `:intersection`, `:foot`, `:project` (789-855), VMIN, VMAX, VLESSP, MINIMALBOX (`matrix.c` 563-720) | floats are reals; three components; `:body`, `:separation`, tests with tolerances |
| Poly* | `triangle`, `vector-mean`, `face-normal-vector` (`geopack.l` 68-121), polygon `:init` (vertices and normal), `:reset-normal`, `:area`, `:centroid` (without a point), `:insidep` (the branch for convex polygons), `:set-convexp` (917-1055), SCA3PROD (`matrix.c` 419-438) | floats are reals; edges, holes, the branch of `:insidep` that adds up angles |
| Round* | MOD (`arith.c` 360-373), ROUND, FLOOR, CEILING, TRUNCATE (1003-1059), MAX, MIN (1103-1153), big_to_float, eusfloat_to_big (`big.c` 954-1002), ckfltval, makeflt (`eus.h` 815-830) | exponents without bounds (but 2^128 is no single-precision number); infinities, NaNs and ratios |
| Format* | XFORMAT (`lispio.c` 429-564), printint and printbig with their fields, printnum (`printer.c` 150-183, 230-285), the count of written characters (`eusstream.c` 204-240) | what is written is one list; the printer's text of an object and sprintf's text of a float are part of the argument; the destination |
| Quat* | class `quaternion` and `q*` (`quaternion.l` 10-52), VNORMALIZE (`matrix.c` 290-311) | floats are reals; `:prin1` |
| Infix* | `expression` (`mathtran.l` 18-119) | left-hand sides (`lhs`), `infix2prefix`, `read-aref`; operators in place of operands are an error |
| Obj* | `make-class` (`common.l` 729-806), `addmethod`, `findmethod`, `findforward`, `SEND`, `SEND_IF_FOUND`, `SENDMESSAGE`, `getslotindex` (`leo.c`), `getobjv` (`eval.c` 22-32), `makeobject` | types of slots, the method cache (C30), vector classes, built-in classes other than `object`, running the method bodies |
| Hist* | `history.l`, `list-insert`, `list-delete` (`common.l` 367-381), `substringp` (`string.l` 122-131), terminal control (`tty.l` 47-68) | the terminal is one row without margin, a column for each byte; raw mode; `!` running the command; `print-history`; the memcpy of overlapping entries is taken to copy upwards |
| Rpy* | `rpy-matrix`, `euler-matrix` (`array.l` 316-333), INV_RPY, INV_EULER (`matrix.c` 1156-1220) | floats are reals (axioms of Reals as listed); type checks of the argument |
| Hull* | `quickhull` and its parts (`primt.l` 46-101), `triangle` (`geopack.l` 85-95) | coordinates are integers (multiples of a unit, no rounding); `delete` compares coordinates instead of identity |
| Cyc* | class `itimer` and its threads (`cyclic.l` 20-73, 104-115) | one timer; a semaphore is its counter; `real-time`; class `behavior`; `deftimer`; signals and the interval timer of the system |
| Dfs* | planning part of `defsystem.l` (211-256; modes `:load`, `:compile`, `:recompile`) | `make-modules`; carrying out the plan; modes that ask the user; file dates are a predicate |
| Arg* | `argparse.l` 65-79, 125-166, 182-253 | texts for help and errors; errors are one value; given functions have no effects; `:dest` is a string; defining the method of the argument's name (it is defined for the class, so all parsers share it) |
| Cir* | `colinear-p` (whether nil), `remove-colinears-from-circuit` (`primt.l` 124-129, 147-153) | coordinates are integers; distance from the line is compared with 0 instead of `*coplanar-threshold*` |
| Mid* | value of `colinear-p`, `find-colinear-points` (`primt.l` 124-145) | as for Cir*; the quotient is kept as a pair |
| Qsort*, Perm* | `lib/llib/qsort.l`, `lib/llib/perm.l` | `docombi`; the counter of the generator |
| Bits*, Expt* | `logand` ... `ash`, `ldb`, `dpb`; `expt` with a non-negative integer exponent | real exponents |
| IntText* | `printint`, `printbig`, `readint`, integer tokens | field padding |
| Hash* | hash tables, queues | `:search`, `:delete` of queues, float rounding of the load test |
| Pkg* | symbol tables, `intern`, `export`, `import`, `unexport`, `unintern`, `use-package` | value and function cells |
| Class* | property lists, class indices, `subclassp`, `derivedp`, method cache | `send` itself, the other methods of `propertied-object` |
| List*, Seq* | list functions, sequence functions on lists and vectors, sets, `sort`, `merge`, `replace` | type bits, element coercion, arrays with an entity vector, impure tests and keys |
| Equal* | `equal`, `sxhash` | `superequal`, foreign strings |
| Vec* | vectors, bit vectors, arrays, fill pointers, `make-array` | float vectors, foreign strings |
| Heap*, Mark* | allocator, splitting, merging, sweeping, marker with its stack | `:dispose` methods, closing of streams, the float margin; free lists are lists, not links read back from memory |
| Copy* | `copy-object` | foreign vectors; collections in the middle of a copy |
| Bq* | `conv-bq`, `read-comma`, `append` | evaluation of the comma forms (a parameter) |
| Read* | printer and reader for lists, vectors, strings, symbols, integers | other packages, labels, floats, ratios, structures, other `#` macros |
| Stream* | buffered output, input, string output | message queues, `:fill`/`:flush` of other classes |
| Control* | special bindings, `catch`, `throw`, `block`, `return-from`, `unwind-protect`, `let`, `while`, calls of parameterless functions | `tagbody`, lexical variables, several variables in one `let`, error handlers |
| Key* | parameter binding, interpreted and compiled | declarations, special parameters |
| Lock*, Port*, Pool* | rw-locks, semaphores, `synch-memory-port`, thread pool | `barrier-synch`, thread creation and deletion |

## Findings

Each of these is a behaviour of the code that contradicts the property; the theorem in brackets
contains the witness.  Those without a theorem were seen while reading and are not proved.

Integers
* A product equal to -2^61 and sums of negative bignums are left un-normalised, so `=` says NIL on
  equal numbers [C02_one_representation_refuted, C02_normalize_negative_refuted].
* `(+ 2^61 -2^61-1 5)` dereferences a fixnum [C09_plus_refuted].
* `big_times` keeps a digit in an `int`: `(* 2^62 2^62)` is 0 [C10_big_times_refuted]; so
  `(expt 3 130)` is wrong [C56_expt_refuted].
* Negative bignums of the same length and top word compare the wrong way round [C11_compare_refuted].
* `(* -2^63 -1)` is -2^63, and bignum times bignum drops the sign [C58_*_refuted].
* `(/ -2^61 2^61)` is 0 [C59_quotient_refuted].
* Bignum by bignum: `(/ 2^103 2^65)` is 0 (cut to 32 bits), `(/ 2^103 2^101 2)` is 4 (later arguments
  ignored), and `(/ 2^63 2^126)`, `(/ (* 100 2^63) (- 2^64 1))`, `(/ (* 5 2^63) -2^64)` access memory outside
  the digits [C59_bignum_divisor_refuted].  Not proved: `(/ (* 5 2^126) 2^63)` needs about 2^65 rounds.
* Ratios: `(+ 239635126/15 465567463/3)` is wrong because the `gcd` works on a truncated word; integers of more
  than 32 bits are cut, `(+ 4294967296 1/2)` is 1/2; `(/ 1/2)` is 1/2; `(/ 1/2 0)` has denominator 0
  [C63_*_refuted].  Not proved: the reader accepts `1/0`; `(+ bignum 1/2)` ignores the ratio; `<` and `>` on
  ratios are not implemented.
* `(logand 2^32 2^32)` is 0; fixnum-then-bignum `logand` boxes a tagged word; `logior` keeps 64 bits;
  `logxor` rejects bignums [C13_*_refuted].
* `(ash 15 60)` wraps, `(ash 1 63)` writes past the digits, `(ash 2^62 1)` is malformed [C14_*_refuted].
* In base 36 `Z000000` overflows an `int`; integers of 1024 characters are not read [C15_*_refuted].
* Not proved: `(/ -2^61 -1)` gives a tag-3 word; `(*)` reads `argv[0]`; `(logand big)` reads `argv[1]`.

Tables
* Hash tables of size 1 or 2 fill up and a lookup never ends [C23_lookup_terminates_refuted].
* Interning is not idempotent under `sys::exportall` [C25_intern_idempotent_exportall_refuted].
* Importing one symbol 59 times fills the table and the next lookup hangs [C26_lookup_terminates_refuted].
* `unexport` breaks probe chains; a re-exported symbol survives `unintern`; `unintern` goes by name
  [C27_*_refuted].
* Purged method-cache entries keep their method under selector NIL; `delete-method` clears only the
  caller's cache; search and store race with `defmethod` [C30_*_refuted].

Lists and sequences
* `nth`, `nthcdr`, `butlast` truncate the index to `int` [C16_*_refuted]; `nbutlast` of everything writes
  through a stray word [C17_nbutlast_refuted].
* `count` on a list is NIL when :start is the length; `remove`, `substitute`, `delete` on vectors lose
  elements when :count (or, for `delete`, :end) stops them early; `delete` on a list misses a match
  exactly at :start > 0 [C18_*_refuted].
* `sort` on strings compares signed chars; `merge` on lists applies the predicate to NIL [C19_*_refuted].
* `replace` with overlap: undefined on vectors, smeared on lists; ranges unchecked [C54_*_refuted].
* `adjoin` does not key the item; `set-exclusive-or` returns keys [C55_*_refuted].
* Not proved: the default :count is 1000000; `pushrest` is a static global (thread race); `(nconc ... x)`
  drops a non-list last argument; `(list*)` reads `argv[-1]`.

Equality, vectors
* Equal instances and bignums hash by address [C21_refuted].
* `aset` on bit vectors builds its mask in `int`: index 31 smears over 31-63, 32-63 are not stored
  [C46_aset_bit_refuted]; so `make-array :initial-contents` fails on bit arrays [C61_bit_refuted].
* Negative subscripts and subscripts of 2^32 and more are accepted [C47_out_of_range_refuted].
* `vector-push` writes past the dimension, ignores displacement, and pushing on an empty array gives an
  unreadable array [C49_refuted].  Ragged initial contents are accepted [C61_ragged_refuted].

Memory
* The free list of index 39 is not purged by the sweep; a dead cell is given out twice
  [C31_double_allocation_refuted].
* The marker does not follow the slots of closures [C32_closure_refuted].
* `copy-object` crashes on objects with fewer than two slots and on empty pointer vectors
  [C34_*_refuted].
* Not proved: components of an object with a dispose hook are reclaimed before `:dispose` runs; more
  than 256 disposals are skipped; method caches are no roots.

Reader, printer, streams
* Commas inside vectors are not replaced in backquote [C42_vector_refuted].
* Backslashes in names are not escaped; number-like names are not escaped; control characters and names
  of 1024 characters are rejected; `printsym` overruns its buffer [C40_*_refuted].
* A symbol named `.` prints as a dotted pair; lists beyond 65536 elements are cut [C41_*_refuted].
* Short writes lose bytes, failed writes are silent, an empty buffer is overrun [C43_*_refuted, C45_empty_refuted].

Control
* Throwing or returning 0.0 delivers the integer 0 [C37_zero_refuted, C37_zero_return_refuted].
* Cleanup forms run by a non-local exit see the inner special bindings [C35_cleanup_refuted], can run
  twice [C36_twice_refuted], and cannot use `return-from` [C37_cleanup_return_refuted].
* `:allow-other-keys` affects only keywords to its right; `:allow-other-keys nil` overrides
  `&allow-other-keys`; supplied keys are bound before the defaults are evaluated; `&aux` switches the
  too-many-arguments check off; compiled functions with 32 keys or more compute `1<<31` in `int`
  [C38_*_refuted].
* Not proved: `setjmp_val` is a global shared by all threads; `(and)` returns an uninitialised value.

Threads
* The semaphore counter wraps at 2^32 posts [C51_overflow_refuted].
* After `thread-no-wait` a later `thread` call can return before its bindings are copied
  [C62_copied_refuted].
* Not proved: `barrier-synch` passes the arguments of `cond-wait` in the wrong order and wakes only one
  thread; `sema_init` ignores the initial value; waiting twice on a port hangs.

Strings
* `string<` and its relatives stop at a zero byte.  An omitted end of `string=` is 100000000, so two longer
  strings that agree up to there are `string=`.  `(string-trim bag s)` with a zero byte in the bag runs out of a string
  of bag characters (both loops of the compiled code look at the bytes around the string).  `nstring-upcase` with an end
  beyond the string writes there.  `string-right-trim` takes the length before it turns a symbol into its name, so
  it fails on symbols although `string-left-trim` accepts them (not modelled: trimming is modelled for strings).

Pathnames, URLs, numerals
* A colon makes the text before it the host; the name of the pathname leaves the colon out, so `"h:/a"` becomes
  `"h/a"`, and `"h:"` alone is an error [C71_colon_refuted, C71_host_refuted].  Parsing into an existing pathname keeps
  the old name and type [C71_reparse_refuted].  Not proved: the empty string has the host `""` where every
  other string has NIL; `directory-namestring` of a file name without directory is NIL; merging does not append relative
  directories; `*default-pathname-defaults*` is a list, so `merge-pathnames` with one argument fails.
* `escape-url` writes a Return as a Newline [C72_return_refuted].  Not proved: `unescape-url` of `"%zz"` is a zero
  byte and of `"%4"` an error.
* `digits-string` forgets the base when it recurses: `(digits-string 8 2 8)` is "18" [C73_base_refuted]; numbers
  with more digits than asked for collide [C73_collision_refuted].
* `#x` takes 64 digits and leaves the others in the stream [C74_hex_refuted]; `#o` of a multiple of 8 from 2^61 on is
  an object no arithmetic function would make, from 2^63 on undefined, and 32 digits overrun the buffer
  [C74_octal_refuted, C74_octal_long_refuted, C74_octal_buffer_refuted].
* `base64decode` adds a zero byte when the number of bytes is not a multiple of 3 [C75_decode_refuted].

Mapping, sorting, permutations
* `mapcar`, `mapc` and `mapcan` report an error when a later list is shorter than the first, where the shortest list
  should end the iteration [C76_mapcar_refuted]; `mapc` returns NIL, not its first list [C76_mapc_refuted]; `mapcon`
  reverses each part [C76_mapcon_refuted]; `reduce :from-end t` folds the reversed sequence from the left, so a function
  that is not commutative gets its arguments in the wrong order [C76_reduce_refuted].  Not proved: an :initial-value of NIL is ignored.
* `qsort` with `<=` does not end on equal elements [C77_qsort_refuted].
* `(list-permutation nil)` is NIL instead of (NIL) [C78_permutations_refuted].

Calendar
* `year-day` uses the leap day of the year in which the program runs: made in 2026, March 1st, 2024 has the seconds of
  February 29th [C80_make_refuted], and `:offset-day` moves such dates a day back [C80_offset_day_refuted].
* `:make` computes the weekday with the month counted from 1, so the weekday is that of the next month: right just in
  February, when the current year is a common year [C80_make_partial, C80_make_refuted].
* `calendar-time :init` takes 2100 for a leap year: January 1st, 2101 is an index error [C80_init_refuted], later dates are
  late [C80_init_bound_partial]; seconds before 1970 give negative fields [C80_negative_refuted].
* `interval-time :make` divides hours by 60: one day is 0 days and 24 hours [C80_interval_refuted].
* `:add` and `:subtract` of two intervals are argument errors [C80_interval_sum_refuted].

Macros
* `return` in `dolist` or `dotimes` leaves just the `while` of the expansion: the result form is still evaluated and its value
  is the value of the loop, so `(dolist (x '(3 2 1)) (return x))` is NIL, contrary to doc/latex/controls.tex:115
  [C81_dolist_refuted, C81_dotimes_refuted, C81_dolist_return_partial].
* Not proved: in the result form of `dolist` the variable is still the last element; a `case` head of NIL is the key NIL, not
  an empty list of keys.

Search
* `best-first` asks its evaluator to compare NIL with a path whenever a path has no extension (`merge-list` takes the `car` of
  an empty list), so an evaluator that only takes paths ends the search with an error [C83_best_first_refuted]. Any answer
  at all about NIL is good enough [C19_merge_list_answers_partial, C83_cheapest].
* The comment "infinite loop" at search.l:102 does not describe the search: it ends in every finite graph [C83_complete].

Roots
* `remove-duplicates` keeps the value of the key of an element in a C variable while it calls the key of the later elements
  (sequence.c 699-709). A collection there frees a key value that nothing else holds: `(remove-duplicates '(1 2 3) :key #'list
  :test #'equal)` can return (2 3) [C84_remove_duplicates_refuted]. `compar` of `sort` pushes both key values, and `call2` of
  `remove` pushes the one it gets before anything is allocated, so these are safe [C84_sort, C84_remove].

Vectors and matrices
* `(v* a b a)` and `(v* a b b)` compute the later elements from the result so far [C85_cross_refuted].
* `(m* a a a)` is wrong: the column-by-column order that protects the second operand destroys the first
  [C85_mtimes_refuted]. So is `(m* a b a)` when two matrix objects of one entity have different widths.
* `(transpose a b)` where A and B were made with `:displaced-to` one vector overwrites elements before they are read: the test
  for doing it in place compares the matrix objects, not the entities [C85_transpose_refuted].
* `rotate-vector` checks no sizes: with `:x`, `:y` or `:z` and a vector of two elements it reads and writes beyond it
  [C85_rotate_refuted]. So does `rotate-matrix` with a result that is too small [C87_matrix_refuted].
* `rotate-matrix` in the plane (axis NIL) multiplies from the left even for the local system [C87_matrix_2d_refuted].
* The `:distance` of two short segments is wrong: when the squared area they span is at most 0.0001 they are taken to be
  parallel, so two segments of length 0.1 that cross at right angles have distance 0.05 [C91_distance_line_refuted]; in the
  same way `:common-perpendicular` calls perpendicular lines `:parallel` [C91_perpendicular_refuted].  The thresholds compare
  an area squared (a fourth power of a length) with a constant.
* `:intersection` of parallel lines is not nil but a list of two NaNs or infinities: it calls `line-intersection3` without a
  tolerance, and the default 0.0 is never above the squared area [C91_intersection3_refuted].
* The distance from a line of no length is not a number [C91_distance_point_refuted].
* `viewportclip` is wrong when a point is not in front of the eye: from (1 0 0) to (0 0 -2), which has no visible point, it
  gives the visible point (2 0 2), which is not on the segment [C92_pyramid_refuted]; from (1 0 0) to (0 0 -1) it divides by
  zero [C92_pyramid_division_refuted].
* `(send polygon :boxtest box tolerance)` grows the box it is given, because `(send box :box tolerance)` is `:grow`, which
  changes the box itself: the same question asked twice has different answers [C93_boxtest_refuted].  `:intersection` takes
  its tolerance as a length, `:grow`, `:init` and `:union` as a fraction of the size of the box, and `bounding-box-union` ignores its tolerance.
* `(instance plane :init n p)` keeps the vector `n` as it is; unless it has length one, `:foot` and `:project` do not give
  points of the plane [C93_plane_refuted].  (`make-plane` makes the length one; but with a list of points it calls
  `face-normal-vector` with two arguments, which takes one, and signals an error.)
* `:insidep` of a convex polygon calls points beyond a sharp corner `:inside`.  A point within `*epsilon*` of the line of an edge
  but beyond its ends is left to the other edges; beyond the tip of a slim triangle it is so for both long edges, and nothing
  excludes the point, even at twenty times the tolerance from the polygon [C94_insidep_refuted].
* `:set-convexp` marks a five-pointed star convex, because none of its corners turns right; `:insidep` then says `:outside` of one of
  the star's own vertices [C94_convexp_refuted].
* `floor`, `ceiling`, `round` and `truncate` pass their double to a function with a single-precision parameter, which converts through
  a C `int`.  (floor 16777217.0) is 16777216, (truncate x) is 1 for an x just below 1, and from 2^31 to 2^61 the conversion overflows,
  which is undefined [C95_refuted, C95_undefined].
* `mod` of an integer of more than one word uses 64 of its bits: (mod (+ (expt 2 64) 1) 5) is 1, not 2; and (mod 5 0) divides by zero in
  C, which is undefined, instead of signalling an error [C96_mod_refuted].
* `max` and `min` turn bignums into floats: the larger of 2^61+1 and 0 is the float 2^61, which is none of the arguments [C96_max_refuted].
* `format`: `~2%` writes three newlines, because the loop runs from 0 to the parameter inclusive.  `~10a` of an object whose `:prin1`
  method calls `format` is wider than asked for, because the inner call resets the count of written characters that the padding looks
  at.  `~40,30d` of a negative bignum is 39 characters wide, because the sign is subtracted from the spaces as well as from the
  zeros.  `~,3f` writes `3f` and no number, because a parameter cannot be left out [C97_refuted].  More than ten parameters are
  written beyond the end of an array.
* `:rotation` of a quaternion takes the sine of half the angle to be positive, so a negative angle turns the wrong way;
  `:inverse-quaternion` divides by the norm instead of its square, so it is the inverse for quaternions of norm one only [C98_refuted].
* `%(x ** -1)` is 1: a literal exponent below 10 becomes that many factors, and -1 of them are none.  `rel-expr` pops the next token whether it is a
  comparison or not, so one token after a complete expression is lost: `%(x -1)`, which the reader reads as `x` and `-1`, is `x`.
  `%(f(x) ** 2)` calls f twice, `%(f(x) * f(x))` once [C99_refuted].
* `SEND_IF_FOUND` gives `findforward` NULL for the class found, and `findmethod` stores through it: sending, with `send-if-found`, a message that a
  component should get through `:forward` is a crash.  A class defined anew by `defclass` keeps its identity but its subclasses keep the old layout, so a
  new slot of it and a slot of a subclass share a place; defined anew below its own subclass, the search for a method never ends.  A global variable used
  in an interpreted method is captured by a slot of that name in the class of the receiver; compiled it is not [C100_refuted].
* `line-refresh` (^G, ^R) returns the end of the line as the place to edit but puts the cursor where it was, so what is typed next appears at the end.
  `line-edit` throws the line itself to say it is finished, so a line edited to nothing is taken for one given up; bytes above 127 index the table of 128
  keys out of range, and the terminal is left in raw mode.  `get-history` gives some other command for a number that is no longer kept, and never searches
  the oldest entry for a pattern.  `add-history` moves the entries with a memcpy of overlapping regions [C101_refuted].
* `euler-angle` takes a z axis tilted by less than 1e-5 for one not tilted in its first angle but not in the second, so the angles turn about the wrong axis
  [C102_euler_angle_refuted].
* `quickhull` of points on a line that all have the same x (the same y if the normal leans more to x than to y) gives one of them twice instead of the two ends: both extreme points are the last of the list
  [C103_refuted].
* `:run` of a timer adds the pending count to `missed` and then clears the semaphore, so a tick in between is neither run nor counted; `:delete` wakes the thread
  by the same semaphore and the function is called once more; an interval that rounds to 0 ticks counts down past zero and is never run [C104_refuted].
* `defsystem`: modules that need each other for loading make `make-load-transformation` recur without end; `compile-filter` looks only at what is planned so far,
  so a module described before its reason of recompilation is not recompiled with it [C105_refuted].
* `argparse.l`: `:store` gives what it stores to `read-from-string` also for `:store-true`, `:store-false`, `:store-const` and `:count`; with `:read t` every occurrence
  of such a flag is an error ("non string") [C106_refuted].
* `remove-colinears-from-circuit` does not test the last two corners and the first, so a corner in the middle of the side that closes the polygon stays; and if a corner
  is given twice in a row both are left out (the second is in line with the first and the next one, the first with the second), so that the polygon changes [C107_refuted].
* `find-colinear-points` reports a point that is given twice as between others, because with any third point it is in line with itself [C108_refuted].
* `dda-line` from A to B and from B to A may draw different pixels (ties are broken towards the start), so that a line
  cannot be wiped out by drawing it backwards [C90_direction_refuted].
* The sequence functions disagree about displaced arrays. `copy-seq` copies the whole vector behind the array
  [C89_copy_refuted]; `subseq` without an end, `concatenate` and `map` read on to the end of that vector [C89_subseq_refuted,
  C89_concatenate_refuted, C89_map_refuted]; `nreverse` adds the offset on one side of each exchange only
  [C89_nreverse_refuted]; `elt` does not add it at all, and all of them but `length` ignore a fill pointer [C89_elt_refuted].
* `(subseq '(a b) 2)` is an error although `(subseq "ab" 2)` is `""`, and `(subseq #i(1 2 3) 7)` asks for a vector of
  negative length [C89_subseq_refuted].
* `fill` of a bit vector with 2 writes ones in whole words and zeros at the edges [C89_fill_refuted].
* `(send c :transform d x)` moves `c` wrongly when `x` hangs on `c` and was changed since it was last asked for its place: the
  place of `x` is looked up while the rotation and position of `c` hold an intermediate product [C88_transform_refuted].
* `:move-to` with `:parent` makes the rotation and position of the argument those of the frame. After
  `(send c :move-to *world-coords* :parent)`, `(send c :translate #f(1 0 0))` changes `*world-coords*` [C88_move_to_refuted].
* `:assoc` does not look whether the new child is above the parent; the ring it makes sends `:worldcoords` into an endless
  recursion [C88_assoc_refuted]. With coordinates, it ignores them when the frame is a child already [C88_assoc_at_refuted].
* `:replace-coords`, inherited by `cascaded-coords`, does not set `changed`: `:worldcoords` goes on answering with the old place
  [C88_replace_refuted]. `:replace-rot` and `:replace-pos` do the same.
* `:rotate-with-matrix` with `:world` overwrites the matrix it is given [C88_rotate_refuted].
* `rotation-angle` of a turn about an axis in the xy plane between x and y, as in
  `(rotation-angle (rotation-matrix 1.0 #f(1 1 0)))`, divides by zero: both tests for the largest component of the axis are
  strict, so the last branch divides by the component along z, whatever the angle [C87_angle_refuted].
* `lu-determinant` is the product of the pivots without the sign of the permutation: with rows exchanged an odd number of
  times it has the wrong sign, as for ((0 1) (2 3)), where it is 2 [C86_determinant_refuted].
* `lu-decompose` calls a pivot below 1e-10 singular whatever the scale, so `inverse-matrix` of 1e-11 times the unit matrix is
  `degenerated` [C86_regular_refuted].
* `(lu-solve lu p b b)` reads right sides that are already overwritten when rows were exchanged
  [C86_solve_in_place_refuted].
* Not proved: `v-abs` computes in `int`, so differences of integer vectors are cut to 32 bits (matrix.c 165, 204); all these
  functions ignore `:displaced-index-offset`.

Interpreter
* A global interpreted function sees the local functions of its caller: `getfunc` walks `ctx->fletfp`, which a call of a
  `lambda` does not reset. With `(defun g () 7) (defun f () (g))`, `(flet ((g () 8)) (f))` is 8 [C82_flet_refuted].
* A form whose operator is a lambda expression does not see the variables around it: `ufuncall` sets `env` and then clears
  it (eval.c 1528, 1612), so `(let ((x 5)) ((lambda (y) (+ x y)) 1))` is an unbound variable [C82_lambda_refuted].
* `let*` with a variable twice is the error "multiple variable declaration" [C82_letstar_refuted]; it compiles.
* `(let ((x 5)) (declare (special x)) x)` finds X unbound: the binding goes to entry 1 of the table of special values,
  shared by all variables that are not proclaimed, and is never read [C82_declare_refuted].
* `return-from` in a local function does not find the blocks around it [C82_return_refuted].
* Not proved: with a closure `(lambda (x) x)` made where an X is bound, a function without variables that calls it gets
  "multiple variable declaration", since `vbind` compares the closure's frames with the caller's `bindfp`, which is NULL;
  `(declare (special g))` of a V_GLOBAL variable makes it unbound; `(and)` returns an uninitialised variable.

Compiler
* In a parallel `let`, a value form that contains another `let` sees the earlier variables of the same `let`:
  `(let ((x 1)) (let ((x 2) (y (let ((z 0)) x))) y))` is 2 when compiled [C79_let_refuted].
* Reading a global variable that is not proclaimed special marks its name special in the innermost frame, so a later binding of
  that name in the same `let*` (or parameter list) is a special binding: `(let* ((y x) (x 1)) (g))` changes what `g` sees
  [C79_undeclared_refuted].
* Not proved: `(progn x 1)` does not report that `x` is unbound; `(and)` is NIL when compiled; a literal integer makes
  arithmetic typed, so `(+ 2305843009213693951 1)` wraps; `abs` of a declared integer uses the C function on `int`; the
  negation of a declared float `<` is `>=`, wrong for NaN, and `=` compares pointers; compiled `(car nil)` reads a slot of the symbol NIL;
  while cleanup forms run, the value of the protected form is only in a C variable; more than 20 nested frames overflow the
  table of the compiler; `return-from` inside a closure cannot be compiled; a pending `loadglobal` is executed after the unwinding of
  a `go`.
