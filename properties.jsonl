{"id": "C01", "title": "Integers survive boxing", "statement": "Boxing a machine integer into a Lisp object and unboxing it gives the same integer, and the tag test recognises every boxed integer.", "quantifier": "every 64-bit signed integer", "why_tests_cant": "2^64 inputs; the representation changes at three internal boundaries (fixnum range, multiple-of-8, bignum)", "anchors": ["lisp/c/eus.c:makeint", "lisp/c/eus.c:intval", "lisp/c/eus.h:isint"]}
{"id": "C02", "title": "One integer, one representation", "statement": "Two integer objects with the same value are indistinguishable by = (numeric equality).", "quantifier": "every pair of integer objects produced by the arithmetic primitives", "why_tests_cant": "depends on which internal path produced each operand; only a proof over all producers settles it", "anchors": ["lisp/c/eus.c:makeint", "lisp/c/arith.c:NUMEQUAL", "lisp/c/big.c:normalize_bignum"]}
{"id": "C03", "title": "Bignum plus/minus small integer is exact", "statement": "Adding or subtracting a non-negative machine integer to a bignum yields exactly the mathematical sum or difference.", "quantifier": "every well-formed bignum of any length and every non-negative machine integer", "why_tests_cant": "carry chains of unbounded length", "anchors": ["lisp/c/big.c:add_int_big", "lisp/c/big.c:sub_int_big", "lisp/c/big.c:stretch_big"]}
{"id": "C04", "title": "Bignum negation is exact", "statement": "Negating a bignum yields exactly its arithmetic negative, and negating twice restores the value.", "quantifier": "every well-formed bignum of any length", "why_tests_cant": "carry chains of unbounded length and the most-negative top word", "anchors": ["lisp/c/big.c:complement_big", "lisp/c/big.c:big_minus", "lisp/c/arith.c:MINUS"]}
{"id": "C05", "title": "Double-word multiply and divide are exact", "statement": "The 63-bit x 63-bit multiply-accumulate returns high and low words whose combined value is exactly d*q+r; the two-word by one-word division returns the exact quotient and remainder.", "quantifier": "every pair of digits, accumulator and divisor in range", "why_tests_cant": "2^189 combinations with carries at bit 31/32/63", "anchors": ["lisp/c/big.c:extended_mul", "lisp/c/big.c:extended_div"]}
{"id": "C06", "title": "Bignum times small integer is exact", "statement": "Multiplying a non-negative bignum by a non-negative machine integer yields the exact product.", "quantifier": "every non-negative bignum of any length and every non-negative machine integer", "why_tests_cant": "unbounded number of digits", "anchors": ["lisp/c/big.c:mul_int_big", "lisp/c/arith.c:TIMES"]}
{"id": "C07", "title": "Bignum division by a small integer is exact", "statement": "Dividing a non-negative bignum by a positive machine integer leaves the exact floor quotient and returns the exact remainder.", "quantifier": "every non-negative bignum and every positive machine integer", "why_tests_cant": "unbounded number of digits", "anchors": ["lisp/c/big.c:div_int_big", "lisp/c/arith.c:QUOTIENT"]}
{"id": "C08", "title": "Bignum addition is exact", "statement": "Adding two bignums yields exactly the mathematical sum.", "quantifier": "every pair of well-formed bignums of any lengths and signs", "why_tests_cant": "unbounded lengths, four sign combinations and carry/borrow propagation", "anchors": ["lisp/c/big.c:big_plus", "lisp/c/arith.c:PLUS"]}
{"id": "C09", "title": "Integer + is exact", "statement": "(+ a b ...) over integers returns the exact mathematical sum, whatever mix of fixnums and bignums is supplied and however intermediate sums overflow.", "quantifier": "every list of integer arguments", "why_tests_cant": "unbounded argument lists and intermediate overflow points", "anchors": ["lisp/c/arith.c:PLUS", "lisp/c/big.c:normalize_bignum"]}
{"id": "C10", "title": "Bignum multiplication is exact", "statement": "Multiplying two bignums yields exactly the mathematical product.", "quantifier": "every pair of bignums", "why_tests_cant": "unbounded digit counts", "anchors": ["lisp/c/big.c:big_times", "lisp/c/arith.c:TIMES"]}
{"id": "C11", "title": "Numeric comparison agrees with the integer order", "statement": "<, >, <=, >= on integers agree with the mathematical order of their values.", "quantifier": "every pair of normalized integers, of either sign and any length", "why_tests_cant": "unbounded digit counts, sign combinations", "anchors": ["lisp/c/big.c:big_compare", "lisp/c/arith.c:GREATERP", "lisp/c/arith.c:LESSP"]}
{"id": "C12", "title": "Byte deposit and extract are inverse", "statement": "Extracting a field that was just deposited returns the deposited low bits, leaves other bits alone, and depositing an extracted field changes nothing.", "quantifier": "every value, target, position and width fitting a word", "why_tests_cant": "2^128 values and all position/width pairs", "anchors": ["lisp/c/arith.c:LDB", "lisp/c/arith.c:DPB"]}
{"id": "C13", "title": "Bitwise integer operations act bit by bit", "statement": "logior, logxor, logand, lognot, logbitp on integers operate on the two's complement bits of the values.", "quantifier": "every list of integer arguments", "why_tests_cant": "all bit patterns and argument lists", "anchors": ["lisp/c/arith.c:LOGIOR", "lisp/c/arith.c:LOGXOR", "lisp/c/arith.c:LOGAND", "lisp/c/arith.c:LOGNOT", "lisp/c/arith.c:LOGBITP"]}
{"id": "C14", "title": "Arithmetic shift multiplies or floor-divides by a power of two", "statement": "(ash n k) equals floor(n * 2^k).", "quantifier": "every integer n and shift count k", "why_tests_cant": "all values and counts", "anchors": ["lisp/c/arith.c:ASH"]}
{"id": "C15", "title": "Printed integers read back", "statement": "Printing an integer in base b and reading the text in base b gives the same integer.", "quantifier": "every integer of any size, and every base the printer accepts", "why_tests_cant": "unbounded digit strings", "anchors": ["lisp/c/printer.c:printint", "lisp/c/printer.c:printbig", "lisp/c/reader.c:readint"]}
{"id": "C16", "title": "List copying and walking functions compute the list operations", "statement": "append, nth, nthcdr, last, butlast, reverse, member, assoc return what the corresponding mathematical list operation returns and leave their arguments unchanged.", "quantifier": "every list and index", "why_tests_cant": "unbounded lists", "anchors": ["lisp/c/lists.c:APPEND", "lisp/c/lists.c:NTHCDR", "lisp/c/lists.c:BUTLAST", "lisp/c/sequence.c:REVERSE"]}
{"id": "C17", "title": "Destructive list functions agree with the copying ones", "statement": "nconc, nreverse, nbutlast return a list with the same elements as append, reverse, butlast and touch no cell outside their arguments.", "quantifier": "every heap and every list in it", "why_tests_cant": "aliasing: the effect is over all heaps", "anchors": ["lisp/c/lists.c:NCONC", "lisp/c/sequence.c:NREVERSE", "lisp/c/lists.c:NBUTLAST"]}
{"id": "C18", "title": "remove/delete/substitute filter exactly the selected elements", "statement": "remove, delete, substitute, position, find, count with :start, :end, :count select exactly the matching elements in the index range, left to right, up to count.", "quantifier": "every sequence, predicate and index range", "why_tests_cant": "unbounded sequences and all range combinations", "anchors": ["lisp/c/sequence.c:SEARCH", "lisp/c/sequence.c:DELETE", "lisp/c/sequence.c:UNIREMOVE", "lisp/l/common.l:remove"]}
{"id": "C19", "title": "sort returns an ordered permutation", "statement": "Sorting returns a permutation of the input ordered by the predicate.", "quantifier": "every sequence and every total preorder", "why_tests_cant": "unbounded sequences", "anchors": ["lisp/c/sequence.c:SORT", "lisp/l/common.l:merge"]}
{"id": "C20", "title": "equal is an equivalence relation", "statement": "equal is reflexive, symmetric and transitive, and eq implies equal.", "quantifier": "every pair/triple of acyclic data", "why_tests_cant": "all object graphs", "anchors": ["lisp/c/predicates.c:equal"]}
{"id": "C21", "title": "equal objects have equal hash codes", "statement": "If two objects are equal then sxhash gives them the same code.", "quantifier": "every pair of objects", "why_tests_cant": "all object pairs", "anchors": ["lisp/c/specials.c:sxhash", "lisp/c/predicates.c:equal"]}
{"id": "C22", "title": "Hash tables behave as finite maps", "statement": "After any history of puthash, gethash, remhash, clrhash a lookup returns the most recently stored live value for an equivalent key, or the default; the count is the number of live keys.", "quantifier": "every finite history of operations, every hash function, every test consistent with it, every initial size above the minimum", "why_tests_cant": "histories with collisions, tombstones and growth are unbounded", "anchors": ["lisp/l/hashtab.l:hash-table"]}
{"id": "C23", "title": "Hash-table lookup terminates", "statement": "A lookup in a hash table always terminates: there is always an empty slot.", "quantifier": "every history and initial size", "why_tests_cant": "the table must be filled in a particular way by an unbounded history", "anchors": ["lisp/l/hashtab.l::find", "lisp/l/hashtab.l::enter", "lisp/l/hashtab.l::extend"]}
{"id": "C24", "title": "queue is FIFO", "statement": "Elements are dequeued in the order they were enqueued and none is lost or duplicated.", "quantifier": "every interleaving of enqueue and dequeue", "why_tests_cant": "unbounded histories", "anchors": ["lisp/l/hashtab.l:queue"]}
{"id": "C25", "title": "Interning is idempotent and unique", "statement": "Interning the same name twice in a package returns the same symbol, different names give different symbols, and interning never disturbs symbols interned before, across table growth.", "quantifier": "every history of interns", "why_tests_cant": "hash collisions and growth over unbounded histories", "anchors": ["lisp/c/intern.c:intern", "lisp/c/intern.c:findsymbol", "lisp/c/intern.c:extendsymvec"]}
{"id": "C26", "title": "Symbol lookup terminates", "statement": "findsymbol always terminates because each symbol table keeps an empty slot.", "quantifier": "every history of intern, export, import and unintern", "why_tests_cant": "adversarial histories fill the table", "anchors": ["lisp/c/intern.c:findsymbol", "lisp/c/intern.c:intern", "lisp/l/packsym.l::enter"]}
{"id": "C27", "title": "Unexporting or uninterning a symbol removes exactly that symbol", "statement": "After unexport/unintern of one symbol all other symbols of the package remain accessible.", "quantifier": "every package history", "why_tests_cant": "depends on collisions in probe chains", "anchors": ["lisp/l/packsym.l::unexport", "lisp/l/packsym.l::unintern", "lisp/c/intern.c:findsymbol"]}
{"id": "C28", "title": "Property lists behave as maps", "statement": "After any sequence of putprop/remprop, get returns the last value put under that indicator, or the default.", "quantifier": "every history of property operations", "why_tests_cant": "unbounded histories", "anchors": ["lisp/c/specials.c:PUTPROP", "lisp/c/specials.c:GETPROP", "lisp/c/specials.c:REMPROP"]}
{"id": "C29", "title": "subclassp is the ancestor relation", "statement": "The constant-time class-index interval test answers exactly the reflexive transitive superclass relation, whatever order classes are defined in; existing objects keep their class.", "quantifier": "every sequence of class definitions forming a forest", "why_tests_cant": "unbounded histories; every definition renumbers others", "anchors": ["lisp/c/makes.c:enterclass", "lisp/c/makes.c:bumpcix", "lisp/c/makes.c:recixobj", "lisp/c/leo.c:SUBCLASSP"]}
{"id": "C30", "title": "The method cache is transparent", "statement": "send selects the method that an uncached search of the class and its ancestors would select, in every history of method definitions and sends.", "quantifier": "every interleaving of defmethod and send, every hash collision", "why_tests_cant": "unbounded histories with cache collisions", "anchors": ["lisp/c/leo.c:findmethod", "lisp/c/leo.c:addmethod", "lisp/c/leo.c:SEND"]}
{"id": "C31", "title": "Allocated cells never overlap and tile the heap", "statement": "The allocator always keeps the heap exactly partitioned into cells; an allocated cell is large enough, is disjoint from all other allocated cells, and splitting then merging conserves the heap.", "quantifier": "every history of allocations and collections", "why_tests_cant": "unbounded histories of split/merge", "anchors": ["lisp/c/memory.c:splitheap", "lisp/c/memory.c:root_alloc_small", "lisp/c/memory.c:mergecell", "lisp/c/memory.c:sweep"]}
{"id": "C32", "title": "Garbage collection marks exactly the reachable objects", "statement": "The marker marks every object reachable from the roots, and nothing else, for any object graph including cycles.", "quantifier": "every heap graph and root set", "why_tests_cant": "all graphs", "anchors": ["lisp/c/memory.c:mark", "lisp/c/memory.c:markall"]}
{"id": "C33", "title": "Collection preserves live data", "statement": "After a collection every object reachable from the roots is still allocated with unchanged contents; every unreachable cell is reusable.", "quantifier": "every heap and root set", "why_tests_cant": "all graphs", "anchors": ["lisp/c/memory.c:gc", "lisp/c/memory.c:sweep", "lisp/c/memory.c:reclaim"]}
{"id": "C34", "title": "copy-object produces an isomorphic disjoint copy and leaves the original unchanged", "statement": "Deep copying a possibly cyclic and shared structure yields a disjoint structure isomorphic to the original, and the original is restored.", "quantifier": "every object graph", "why_tests_cant": "sharing and cycles: all graphs", "anchors": ["lisp/c/leo.c:copyobj", "lisp/c/leo.c:copyunmark", "lisp/c/leo.c:COPYOBJ"]}
{"id": "C35", "title": "Special bindings are undone on every exit", "statement": "After a form that binds special variables finishes, by value or by a non-local exit, every special variable has the value it had before, up to assignments made to outer bindings.", "quantifier": "every program and exit path", "why_tests_cant": "all nestings of control constructs", "anchors": ["lisp/c/eval.c:bindspecial", "lisp/c/eval.c:unbindspecial", "lisp/c/eus.c:unwind"]}
{"id": "C36", "title": "unwind-protect runs cleanups exactly once, innermost first", "statement": "Each protected form's cleanup runs exactly once when control leaves it, by whatever route, in innermost-first order.", "quantifier": "every program and exit path", "why_tests_cant": "all nestings of control constructs", "anchors": ["lisp/c/specials.c:UNWINDPROTECT", "lisp/c/eus.c:unwind", "lisp/c/specials.c:throw"]}
{"id": "C37", "title": "throw and return-from reach the innermost matching point", "statement": "throw transfers to the most recent active catch with an eq tag; return-from to the block of that name; the delivered value is the one given.", "quantifier": "every nesting of catch/block/throw and every value", "why_tests_cant": "all nestings and values, including special word values", "anchors": ["lisp/c/specials.c:CATCH", "lisp/c/specials.c:throw", "lisp/c/specials.c:RETFROM", "lisp/c/eus.h:eussetjmp"]}
{"id": "C38", "title": "Keyword arguments bind the leftmost matching keyword", "statement": "Each keyword parameter gets the first supplied value for that keyword, defaults are used exactly for absent ones, and unknown keywords are reported unless allowed.", "quantifier": "every lambda list and argument list", "why_tests_cant": "unbounded argument lists", "anchors": ["lisp/c/eval.c:bindkeyparams", "lisp/c/eval.c:parsekeyparams"]}
{"id": "C39", "title": "Printed strings read back", "statement": "Printing a string with escapes and reading the text gives a string with the same bytes.", "quantifier": "every byte string", "why_tests_cant": "unbounded strings over 256 bytes", "anchors": ["lisp/c/printer.c:printstr", "lisp/c/reader.c:readstring"]}
{"id": "C40", "title": "Printed symbols read back", "statement": "Printing a symbol's name with escapes and reading it gives a symbol of the same name.", "quantifier": "every symbol name", "why_tests_cant": "unbounded names; escaping rules", "anchors": ["lisp/c/printer.c:printsym", "lisp/c/reader.c:read2", "lisp/c/reader.c:readsymbol"]}
{"id": "C41", "title": "Printed data reads back", "statement": "Printing nested lists, dotted pairs, quotes, strings, symbols and integers and reading the text gives an equal datum.", "quantifier": "every finite datum of these types", "why_tests_cant": "recursion over all data", "anchors": ["lisp/c/printer.c:printlist", "lisp/c/printer.c:prinx", "lisp/c/reader.c:read_delimited_list", "lisp/c/reader.c:reader"]}
{"id": "C42", "title": "Backquote templates build the intended structure", "statement": "Evaluating the expansion of a backquote template gives the template with each comma form replaced by its value and each ,@ form spliced.", "quantifier": "every template and every evaluator of the embedded forms", "why_tests_cant": "recursion over all templates", "anchors": ["lisp/l/readmacro.l:conv-bq", "lisp/l/readmacro.l:conscons"]}
{"id": "C43", "title": "Output streams deliver every byte once and in order", "statement": "For any sequence of character and string writes and flushes the bytes delivered to the file are exactly the bytes written, in order.", "quantifier": "every sequence of writes, every buffer size, every behaviour of the operating system's write", "why_tests_cant": "short writes and buffer boundaries", "anchors": ["lisp/c/eusstream.c:writech", "lisp/c/eusstream.c:writestr", "lisp/c/eusstream.c:flushstream"]}
{"id": "C44", "title": "Input streams deliver the file contents", "statement": "Reading characters gives the file contents in order, whatever chunks the operating system returns; unread-char of the last character makes it the next one read.", "quantifier": "every file, every chunking, every interleaving of read and unread", "why_tests_cant": "all chunkings", "anchors": ["lisp/c/eusstream.c:readch", "lisp/c/eusstream.c:fillstream", "lisp/c/eusstream.c:unreadch"]}
{"id": "C45", "title": "String output streams accumulate everything written", "statement": "The string obtained from a string output stream is the concatenation of everything written.", "quantifier": "every sequence of writes and initial buffer size", "why_tests_cant": "buffer growth boundaries", "anchors": ["lisp/c/eusstream.c:writech", "lisp/c/eusstream.c:flushstream", "lisp/l/stream.l:get-output-stream-string"]}
{"id": "C46", "title": "Vector elements are independent", "statement": "Storing into one element of a vector changes that element to the stored value and no other element, for each element type.", "quantifier": "every vector, index and value, including bit vectors", "why_tests_cant": "all indices; packed representations", "anchors": ["lisp/c/vectorarray.c:vset", "lisp/c/vectorarray.c:vref", "lisp/c/vectorarray.c:SETBIT"]}
{"id": "C47", "title": "Array index mapping is injective", "statement": "Distinct in-range subscripts address distinct elements inside the array's storage; out-of-range subscripts are reported.", "quantifier": "every rank and dimension list, every subscript list", "why_tests_cant": "all ranks and dimensions", "anchors": ["lisp/c/vectorarray.c:arrayindex", "lisp/c/vectorarray.c:AREF"]}
{"id": "C48", "title": "Bit-vector operations act element by element", "statement": "bit-and, bit-ior, bit-xor, bit-eqv, bit-nand, bit-nor, bit-not compute the corresponding boolean function at every index.", "quantifier": "every pair of bit vectors", "why_tests_cant": "all lengths and contents", "anchors": ["lisp/c/vectorarray.c:BITAND", "lisp/c/vectorarray.c:BITNOT"]}
{"id": "C49", "title": "vector-push/vector-pop form a stack", "statement": "vector-push, vector-push-extend and vector-pop on a fill-pointer vector behave as a stack and never write outside the storage.", "quantifier": "every history of pushes and pops and every initial size", "why_tests_cant": "unbounded histories with growth", "anchors": ["lisp/c/vectorarray.c:VECTORPUSH", "lisp/c/vectorarray.c:VECTORPOP", "lisp/c/vectorarray.c:VECTOREXPUSH"]}
{"id": "C50", "title": "Readers-writer lock exclusion", "statement": "At no time do a writer and another holder hold the same rw-lock.", "quantifier": "every interleaving of any number of threads the lock can count (fewer than 2^32-1; the thread table holds 64), each releasing only what it holds", "why_tests_cant": "schedules", "anchors": ["lisp/c/mthread_posix.c:rw_rdlock", "lisp/c/mthread_posix.c:rw_wrlock", "lisp/c/mthread_posix.c:rw_unlock"]}
{"id": "C51", "title": "Semaphores count", "statement": "The number of completed waits never exceeds the number of posts, and no post is lost.", "quantifier": "every interleaving of any number of threads", "why_tests_cant": "schedules", "anchors": ["lisp/c/mthread_posix.c:sema_wait", "lisp/c/mthread_posix.c:sema_post"]}
{"id": "C52", "title": "wait-thread returns the matching result", "statement": "The value returned for a thread request is the result of that request's function on its arguments, and a worker handles one request at a time.", "quantifier": "every interleaving of any number of requesters and pool threads", "why_tests_cant": "schedules", "anchors": ["lisp/c/mthread.c:AFUNCALL", "lisp/c/mthread.c:WAIT_AFUNCALL", "lisp/c/mthread.c:thread_main", "lisp/c/mthread.c:get_free_thread"]}
{"id": "C53", "title": "Synchronised memory ports pass values in order", "statement": "Values written to a synch-memory-port are read exactly once and in order.", "quantifier": "every interleaving of writers and readers", "why_tests_cant": "schedules", "anchors": ["lisp/l/par.l:synch-memory-port"]}
{"id": "C54", "title": "replace copies the source range", "statement": "replace copies the designated source range to the destination range even when they overlap, and changes nothing else.", "quantifier": "every pair of vectors and ranges, including the same vector", "why_tests_cant": "all ranges and overlaps", "anchors": ["lisp/c/sequence.c:REPLACE"]}
{"id": "C55", "title": "Sets built by list operations are correct", "statement": "union, intersection, set-difference, adjoin, remove-duplicates have the set-theoretic membership.", "quantifier": "every pair of lists and test", "why_tests_cant": "unbounded lists", "anchors": ["lisp/l/common.l:union", "lisp/l/common.l:intersection", "lisp/l/common.l:set-difference", "lisp/c/sequence.c:REMOVE-DUPLICATES"]}
{"id": "C56", "title": "expt with integer exponent is repeated multiplication", "statement": "(expt a n) for a non-negative integer n is the n-fold product.", "quantifier": "every base and exponent", "why_tests_cant": "unbounded exponents", "anchors": ["lisp/l/common.l:expt"]}
{"id": "C57", "title": "Integer - is exact", "statement": "(- a) returns the exact negation and (- a b ...) the exact difference, whatever mix of fixnums and bignums is supplied and however intermediate results overflow or shrink.", "quantifier": "every non-empty list of integer arguments of any size", "why_tests_cant": "the accumulator moves back and forth between fixnum and bignum form depending on the whole argument history", "anchors": ["lisp/c/arith.c:MINUS", "lisp/c/big.c:big_minus", "lisp/c/big.c:normalize_bignum"]}
{"id": "C58", "title": "Integer * is exact", "statement": "(* a b ...) over integers returns the exact mathematical product.", "quantifier": "every list of integer arguments", "why_tests_cant": "depends on carry and sign behaviour at word boundaries for arbitrarily long numbers", "anchors": ["lisp/c/arith.c:TIMES", "lisp/c/big.c:mul_int_big", "lisp/c/big.c:complement_big"]}
{"id": "C59", "title": "Integer / truncates exactly", "statement": "(/ a b ...) over integers returns the successive quotients truncated towards zero.", "quantifier": "every integer dividend and every list of non-zero integer divisors", "why_tests_cant": "digit-by-digit long division over unbounded dividends of both signs", "anchors": ["lisp/c/arith.c:QUOTIENT", "lisp/c/big.c:div_int_big", "lisp/c/big.c:extended_div"]}
{"id": "C60", "title": "1+, 1- and abs are exact", "statement": "(1+ a), (1- a) and (abs a) return exactly a+1, a-1 and |a|, crossing between fixnum and bignum where needed.", "quantifier": "every integer of any size", "why_tests_cant": "boundary transitions at every word boundary of unbounded integers", "anchors": ["lisp/c/arith.c:ADD1", "lisp/c/arith.c:SUB1", "lisp/c/arith.c:ABS"]}
{"id": "C61", "title": "make-array places :initial-contents row by row", "statement": "For nested sequences of the shape given by the dimensions, (aref (make-array dims :initial-contents c) i j ...) is the element of c at i, j, ...", "quantifier": "every rank, dimension list and contents", "why_tests_cant": "all ranks, dimensions and element types", "anchors": ["lisp/l/array.l:make-array", "lisp/l/array.l:fill-initial-contents", "lisp/c/vectorarray.c:vset"]}
{"id": "C62", "title": "thread hands over the special bindings", "statement": "When thread returns, the worker has already copied the caller's special bindings, so later changes by the caller do not reach the request.", "quantifier": "every interleaving of any number of requesters and pool threads", "why_tests_cant": "schedules", "anchors": ["lisp/c/mthread.c:AFUNCALL", "lisp/c/mthread.c:AFUNCALL_NO_WAIT", "lisp/c/mthread.c:thread_main"]}
{"id": "C63", "title": "Ratio arithmetic is exact", "statement": "+, -, * and / on ratios and integers return exactly the rational result, in lowest terms, as an integer when the denominator is 1.", "quantifier": "every list of integers and ratios", "why_tests_cant": "unbounded numerators, denominators and argument lists; failures need large intermediate values", "anchors": ["lisp/c/arith.c:ratio_plus", "lisp/c/arith.c:ratio_minus", "lisp/c/arith.c:ratio_times", "lisp/c/arith.c:ratio_divide", "lisp/c/reader.c:gcd"]}
{"id": "C64", "title": "= and /= on rationals compare the numbers", "statement": "(= a b ...) is true exactly when all the numbers are equal, (/= a b ...) exactly when no two of them are.", "quantifier": "every list of two or more fixnums and ratios", "why_tests_cant": "argument lists of any length and mix", "anchors": ["lisp/c/arith.c:NUMEQUAL", "lisp/c/arith.c:NUMNEQUAL"]}
{"id": "C65", "title": "Printed ratios read back", "statement": "Printing a ratio in base b and reading the text in base b gives the same ratio.", "quantifier": "every ratio, every base 2 to 36", "why_tests_cant": "all ratios and bases", "anchors": ["lisp/c/printer.c:printratio", "lisp/c/reader.c:readratio", "lisp/c/reader.c:read2"]}
{"id": "C66", "title": "string<, string<=, string> and string>= are lexicographic", "statement": "string< holds exactly when the first string comes before the second lexicographically by byte values, a proper prefix coming first; string>, string<= and string>= agree with it, and exactly one of less, same, greater holds for any two strings.", "quantifier": "every pair of strings", "why_tests_cant": "all pairs of strings of all lengths", "anchors": ["lisp/c/charstring.c:STR_LT", "lisp/c/charstring.c:STR_LE", "lisp/c/charstring.c:STR_GT", "lisp/c/charstring.c:STR_GE"]}
{"id": "C67", "title": "string= and string-equal decide equality of the designated parts", "statement": "string= (string-equal) returns true exactly when the parts of the two strings between their start and end are equal (equal up to the case of letters), an omitted end being the length of the string.", "quantifier": "every pair of strings, every start and end", "why_tests_cant": "all strings, all bounds", "anchors": ["lisp/l/string.l:string=", "lisp/l/string.l:string-equal", "lisp/c/charstring.c:STRINGEQ", "lisp/c/charstring.c:STRINGEQUAL"]}
{"id": "C68", "title": "string-trim removes exactly the bag characters at the ends", "statement": "string-left-trim, string-right-trim and string-trim return the string without the longest run of bag characters at the left, the right, both ends; nothing else is removed and the result neither starts nor ends with a bag character on the trimmed side.", "quantifier": "every string, every bag of characters", "why_tests_cant": "all strings and bags, including strings that consist of bag characters only", "anchors": ["lisp/l/string.l:string-left-trim", "lisp/l/string.l:string-right-trim", "lisp/l/string.l:string-trim"]}
{"id": "C69", "title": "Case conversion touches only what it should", "statement": "nstring-upcase and nstring-downcase convert the letters of the given string between start and end and change no other character and no other string; string-upcase and string-downcase return a new string with the converted text and leave the argument (or the name of a symbol argument) unchanged; string of a symbol is a new string.", "quantifier": "every memory of strings, every string or symbol, every start and end", "why_tests_cant": "aliasing with any other live string, all contents and bounds", "anchors": ["lisp/l/string.l:nstring-upcase", "lisp/l/string.l:nstring-downcase", "lisp/l/string.l:string-upcase", "lisp/l/string.l:string-downcase", "lisp/l/string.l:string"]}
{"id": "C70", "title": "substringp decides occurrence", "statement": "(substringp sub str) is true exactly when sub occurs in str as a run of consecutive characters, up to the case of letters.", "quantifier": "every pair of strings", "why_tests_cant": "all pairs of strings", "anchors": ["lisp/l/string.l:substringp"]}
{"id": "C71", "title": "Pathnames denote the file they were made from", "statement": "The namestring of (pathname s) is s with runs of slashes written as one slash; the directories, name and type are the pieces of s between the slashes and at the last dot; (pathname (namestring p)) is p; a leading ~ stands for the home directory; merging a file name with a directory gives the file in that directory, and merging is associative and idempotent.", "quantifier": "every string, every pathname, every home directory", "why_tests_cant": "all strings, with any number of slashes, dots and components", "anchors": ["lisp/l/string.l::parse-namestring", "lisp/l/string.l::directory-string", "lisp/l/string.l::namestring", "lisp/l/string.l::merge", "lisp/l/string.l:pathname", "lisp/l/string.l:merge-pathnames"]}
{"id": "C72", "title": "URL escapes round-trip", "statement": "(unescape-url (escape-url s)) is s; the escaped text has only letters, digits, the unreserved characters, + and % followed by two hexadecimal digits.", "quantifier": "every byte string and every choice of the query option and of the case of hexadecimal digits", "why_tests_cant": "all byte strings", "anchors": ["lisp/l/string.l:escape-url", "lisp/l/string.l:unescape-url"]}
{"id": "C73", "title": "Numbered file names are distinct and in order", "statement": "digits-string writes the number in the given base with exactly the given number of digits, and sequential-file-name gives different numbers different names that sort in the order of the numbers.", "quantifier": "every number, number of digits, head and extension", "why_tests_cant": "all numbers and all pairs of numbers", "anchors": ["lisp/l/string.l:digits-string", "lisp/l/string.l:sequential-file-name"]}
{"id": "C74", "title": "#x and #o read the number written", "statement": "#x followed by hexadecimal digits (upper or lower case) and #o followed by octal digits read as the number written, in the same representation as arithmetic would produce it, and consume nothing after the digits; what is printed in hexadecimal reads back.", "quantifier": "every digit string and every text after it", "why_tests_cant": "numbers of any size and any following text", "anchors": ["lisp/c/reader.c:read_sharp_hex", "lisp/c/reader.c:read_sharp_octal"]}
{"id": "C75", "title": "Base 64 round trip", "statement": "base64encode writes the RFC 4648 text of the bytes, with padding, in lines of 76 characters; base64decode of that text, whatever blanks and line feeds it contains, gives back exactly the bytes.", "quantifier": "every byte string and every placing of line feeds", "why_tests_cant": "strings of every length, each residue modulo 3 and every byte value", "anchors": ["lib/llib/base64.l:base64encode", "lib/llib/base64.l:base64decode"]}
{"id": "C76", "title": "Mapping functions call in order and collect", "statement": "mapcar, mapc, mapcan, maplist and mapcon call the function on the successive rows (or tails), in order, once each, as far as the shortest list goes, stop at the first error and combine the results as documented; every and some stop at the first deciding value; reduce folds the selected part, from the left or, with :from-end, from the right.", "quantifier": "every function (with any effects and failures), every number and length of lists", "why_tests_cant": "the function is an arbitrary effectful program", "anchors": ["lisp/c/specials.c:MAPCAR", "lisp/c/specials.c:MAPC", "lisp/c/specials.c:MAPCAN", "lisp/l/common.l:maplist", "lisp/l/common.l:mapcon", "lisp/l/common.l:every", "lisp/l/common.l:some", "lisp/l/common.l:reduce"]}
{"id": "C77", "title": "qsort sorts and ends", "statement": "qsort terminates and returns a rearrangement of the vector in which no element belongs before an earlier one, for any predicate that sort accepts.", "quantifier": "every vector and every order", "why_tests_cant": "all vectors and all predicates, termination", "anchors": ["lib/llib/qsort.l:quick-sort", "lib/llib/qsort.l:qsort"]}
{"id": "C78", "title": "Permutations and combinations are complete", "statement": "list-permutation, and the permutation generator sent :next until NIL (or :all), produce every permutation of the list and nothing else, n! in number, without repetition if the elements differ; combi produces every sublist of the given length, binomially many, without repetition; combi2 is combi with 2.", "quantifier": "every list and every length of combinations", "why_tests_cant": "completeness and absence of repetition for lists of every length", "anchors": ["lib/llib/perm.l:list-permutation", "lib/llib/perm.l:permutation", "lib/llib/perm.l:combi", "lib/llib/perm.l:combi2"]}
{"id": "C79", "title": "Compiled functions do what interpreted functions do", "statement": "A function compiled by the compiler returns the value that evaluating it gives, with the same effects on special variables and on the world in the same order, reports an error exactly when evaluation does, goes on forever exactly when evaluation does, never uses a word of the stack that is not a value, and leaves no special binding behind, however it is left (by its end, by return-from, go or while's block).  Covered are constants, variables, setq, progn, if, cond, and, or, while, let, let*, block, return-from, tagbody, go, calls, null, eq, car, cdr and type predicates.", "quantifier": "every program over these forms, every nesting, every argument list, every behaviour of the functions called, terminating or not", "why_tests_cant": "the property quantifies over all programs; the stack offsets, labels, unwinding decisions and the variable table must be right for every nesting of forms", "anchors": ["lisp/comp/comp.l:compiler", "lisp/comp/trans.l:translator", "lisp/c/eval.c:bindspecial", "lisp/c/eval.c:unbindx", "lisp/c/eus.c:unwind"]}
{"id": "C80", "title": "Calendar times name the moment of their seconds, and the seconds of their date", "statement": "For every number of seconds since January 1st, 1970 (and time zone), (instance calendar-time :init secs) shows the year, month, day, weekday, hours, minutes and seconds of that moment in the Gregorian calendar; (instance calendar-time :make ...) of a date has the seconds and the weekday of that date; :add and :subtract give the moment later or earlier by the interval, counted in microseconds; :offset-day k gives midnight k days away; an interval-time is split into days, hours below 24, minutes and seconds, and intervals can be added and subtracted.", "quantifier": "all seconds, time zones, dates, times of day, intervals, offsets, and years in which the program runs", "why_tests_cant": "Calendar errors show only on particular days (leap days, ends of years and centuries) and only when the program runs in particular years; a test runs in one year on some dates.", "anchors": ["lib/llib/time.l:52-71", "lib/llib/time.l:74-86", "lib/llib/time.l:132-187", "lib/llib/time.l:306-396"]}
{"id": "C81", "title": "Macros for sequencing, assignment, iteration and choice mean what the manual says", "statement": "when, unless, prog1, psetq, case, loop, do, do*, dolist and dotimes do exactly what their descriptions say: prog1 returns the first value, psetq and do compute all new values before assigning, do* steps in order, case evaluates its key once and takes the first clause that has it, dolist and dotimes evaluate their forms for each element or number and then the result form, and all loops are left by return, whose value becomes the value of the loop. Errors, returns and gos out of the forms go where they would go without the macro, variables of the program are never confused with those of the expansion, and the macro form ends if and only if its description does.", "quantifier": "all forms, keys, clauses, variables, environments, global variables and functions with arbitrary effects, including those that do not end", "why_tests_cant": "The forms are arbitrary programs with side effects and non-local exits; capture of a variable or a wrong order of evaluation shows only in particular combinations of forms.", "anchors": ["lisp/l/common.l:90-102", "lisp/l/common.l:145-164", "lisp/l/common.l:212-259", "lisp/l/common.l:270-296", "lisp/c/specials.c:345-388", "doc/latex/controls.tex:113-116"]}
{"id": "C82", "title": "Interpreted programs follow lexical scope", "statement": "An interpreted program means what its text says: a variable is the innermost one its text binds, or the special variable in force; a function name is the innermost flet or labels function around it, or the global one; return-from leaves the innermost block of that name around it, from any depth of calls within it; local functions see and assign the variables of the place they are written in; special bindings are undone however their scope is left. The interpreter's stack pointer and frame pointers come back to where they were. It ends, fails or runs on exactly when the text says so.", "quantifier": "every program over constants, variables, setq, progn, if, while, let, let*, block, return-from, flet, labels, calls, every set of global functions and every behaviour of functions written in C", "why_tests_cant": "the property quantifies over all programs; frames share one stack, pointers into it outlive many pushes and pops, and a wrong link shows only for particular nestings of scopes and calls", "anchors": ["lisp/c/eval.c:getval", "lisp/c/eval.c:setval", "lisp/c/eval.c:getfunc", "lisp/c/eval.c:bindspecial", "lisp/c/eval.c:unbindspecial", "lisp/c/eval.c:vbind", "lisp/c/eval.c:declare", "lisp/c/eval.c:funlambda", "lisp/c/eval.c:ufuncall", "lisp/c/specials.c:PARLET", "lisp/c/specials.c:SEQLET", "lisp/c/specials.c:FLET", "lisp/c/specials.c:LABELS", "lisp/c/specials.c:BLOCK", "lisp/c/specials.c:RETFROM", "lisp/c/eus.c:unwind"]}
{"id": "C83", "title": "Graph search finds routes", "statement": "With an extension function that adds a successor not yet on the path (as extend-wing does), whatever depth-first, breadth-first, best-first, hill-climb or branch-and-bound returns is a route from the start to the finish without repeated nodes; when finitely many nodes can be reached the search ends, and it returns NIL exactly when there is no route. breadth-first returns a shortest route (in infinite graphs too); depth-first the route that takes the earlier successor wherever another one parts from it; hill-climb the one whose part up to there the evaluator does not rank behind; branch-and-bound and best-first a route no other ranks before, when the evaluator is an order in which extending a path never makes it better.", "quantifier": "for every graph, start and finish, every evaluator (total or failing on NIL), every route", "why_tests_cant": "needs all graphs and all routes in them; a test sees one graph", "anchors": ["lib/llib/search.l:18-81", "lisp/l/common.l:967-983", "lisp/c/sequence.c:953-1010"]}
{"id": "C84", "title": "A collection inside a primitive takes nothing it still uses", "statement": "list, list*, append, subst, butlast, subseq, copy-seq, reverse, concatenate, mapcar, remove, substitute, remove-duplicates, sort and the reader's list and vector give the same result whether or not the garbage collector runs at any of their allocations or inside the functions they call (:test, :key, the mapped function), and whatever it frees: they never touch a freed cell, return what they should with every cell of it allocated, and leave the stack and all that the caller can reach as it was. They fail only when memory runs out, when a called function fails, or on arguments out of range.", "quantifier": "Every heap (also with shared and circular structure), every collector that keeps what its roots reach, every moment and outcome of collections, every pure test and key function that itself allocates and collects, every list length.", "why_tests_cant": "A collection at a particular allocation needs memory to be nearly used up at just that point; a missing root shows only when the freed cell is reused before the primitive reads it. Tests run with a large heap and see no collection inside a primitive.", "anchors": ["lisp/c/makes.c: cons, stacknlist, makevector", "lisp/c/lists.c: LIST, LIST_STAR, APPEND, subst, BUTLAST", "lisp/c/sequence.c: call1, call2, SUBSEQ, COPYSEQ, REVERSE, pushsequence, makesequence, CONCATENATE, UNIREMOVE, REMOVE_DUPLICATES, SUBSTITUTE, compar, SORT", "lisp/c/specials.c: MAPCAR", "lisp/c/reader.c: readvector, read_delimited_list"]}
{"id": "C85", "title": "A vector or matrix function may put its result into an operand", "statement": "v+, v-, scale, midpoint, normalize-vector, v-direction (direction), v++, v*, m*, transform, transpose and rotate-vector give in the result argument the value computed from the operands as they were at the call, whether or not the result is one of the operands or shares its memory; they change nothing else, never touch memory outside the vectors, and refuse operands and results whose sizes do not fit.", "quantifier": "Every arithmetic (nothing is assumed of the operations, so also floating point), all sizes and contents of vectors and matrices, every way in which the arguments coincide.", "why_tests_cant": "Tests call these functions with separate vectors, or in place with a few sizes. Whether an element is read after it was overwritten depends on the order of the loops, the shapes and on which arguments coincide; a symmetric or diagonal test matrix hides it.", "anchors": ["lisp/c/matrix.c: VPLUS, VPLUSPLUS, VMINUS, VNORMALIZE, VDIRECTION, VCROSSPRODUCT, SCALEVEC, MIDPOINT, MATTIMES, TRANSFORM, TRANSPOSE, ROTVEC"]}
{"id": "C86", "title": "LU decomposition solves the equations it accepts", "statement": "When lu-decompose accepts a square matrix, the permutation it returns rearranges the rows, and lu-solve (into another vector than the right side) gives the one solution of the equations for every right side; simultaneous-equation gives that solution or an error; inverse-matrix gives an inverse from both sides or says degenerated. Singular matrices, and only those, are refused. lu-determinant is the determinant.", "quantifier": "Every size, every matrix and right side, every way to compare candidates for the pivot, over every field (exact arithmetic).", "why_tests_cant": "Whether rows are exchanged, in which order, and which elements are overwritten when depends on the numbers; a sample of small matrices leaves most sequences of exchanges untried, and for a matrix that needs an even number of exchanges the missing sign of the determinant does not show. That a singular matrix is never accepted is a statement about all of them.", "anchors": ["lisp/c/matrix.c: decompose, LU_DECOMPOSE, solve, LU_SOLVE, LU_DETERMINANT", "lisp/l/array.l: simultaneous-equation, inverse-matrix"]}
{"id": "C87", "title": "Rotation matrices rotate, and rotation-angle recovers the rotation", "statement": "rotation-matrix about any axis that is not too short turns every vector about that axis (Rodrigues' formula): the axis stays, the transposed matrix is the inverse, the determinant is one, and successive turns about one axis add their angles; the axis keywords :x to :-z are the turns about the unit vectors. rotate-vector multiplies with that matrix; rotate-matrix multiplies from the left (world) or from the right (local), in place or into another matrix. rotation-angle of a rotation matrix gives back the angle and the axis (for half a turn, up to sign).", "quantifier": "Every axis, every angle, every vector and matrix; over every field (rotation-angle: the real numbers), with exact arithmetic; every memory.", "why_tests_cant": "Numeric tests compare a few rotations up to a tolerance, mostly about the coordinate axes or generic ones; rotation-angle chooses its formula by comparing components of the axis and fails exactly on a set of axes that random tests never meet.", "anchors": ["lisp/c/matrix.c: ROTVEC, ROTMAT, ROTATION_MATRIX, ROTANGLE"]}
{"id": "C88", "title": "Cascaded coordinates are where their chain of frames puts them, and move as asked", "statement": "A cascaded-coords is where its own coordinates, placed in those of its parent, its grandparent and so on, put it, and :worldcoords answers exactly that, however the remembered places and changed flags stand after any sequence of operations. :transform, :move-to, :translate, :locate, :rotate-with-matrix and :orient-with-matrix bring the frame to the place that is described by the argument as seen from wrt (:local, :parent, :world, another frame or plain coordinates); everything that hangs on the frame moves rigidly along and nothing else moves. :transformation finds the change from one frame to another and disturbs nothing. :assoc, :dissoc and :clear-assoc change who hangs on whom and leave every place in the world as it is; :assoc with coordinates puts the frame there.", "quantifier": "Every commutative ring of numbers (exact arithmetic), every tree of frames of any depth, every history of operations, every wrt.", "why_tests_cant": "The places remembered in worldcoords are recomputed or not depending on the whole history of moves, attachments and questions; a test follows one history with one tree, and a stale or shared place shows only when exactly that frame is asked again later.", "anchors": ["lisp/l/coordinates.l: coordinates, cascaded-coords, transform-coords"]}
{"id": "C89", "title": "Sequence functions treat lists, vectors of every kind and displaced arrays alike", "statement": "subseq, copy-seq, reverse, nreverse, concatenate, coerce, fill, map, length and elt treat a list, a bit vector, a string, an integer vector, a vector of objects and a one-dimensional array displaced into such a vector as the list of its elements: subseq gives exactly elements start to end-1 in a new sequence of the same kind, reverse and nreverse the elements backwards (nreverse in place, the rest of the vector untouched), concatenate and coerce a sequence of the asked kind with all elements in order, each reduced as that kind stores it, or an error if one cannot be stored, fill replaces exactly elements start to end-1, and map calls the function once per index below the shortest length, in order.", "quantifier": "Every sequence of every kind and length, every offset, start, end and number of sequences, every function given to map (with effects).", "why_tests_cant": "Each kind has a code path of its own, with word boundaries at multiples of 64 for bits, and arrays add an offset to every one of them; tests use short strings and lists and no displaced arrays.", "anchors": ["lisp/c/sequence.c 110-517, 1018-1053"]}
{"id": "C90", "title": "dda-line draws a straight line", "statement": "(dda-line x0 y0 x1 y1) gives the pixels of a line: it starts at (x0,y0), ends at (x1,y1), has one pixel for every column (or row, whichever are more), each pixel touches the one before it and is one step further along the longer direction, and each is at most half a pixel away from the true line, measured across the longer direction.", "quantifier": "Every pair of integer points, in all eight directions, including level, upright and diagonal lines and single points.", "why_tests_cant": "The error term is updated by additions only; whether it stays in its band and meets the end point depends on every slope, not on the few slopes a test draws.", "anchors": ["lisp/geo/dda.l: line-DDA, dda-line"]}
{"id": "C91", "title": "distances, perpendiculars and intersections of lines and segments are the geometric ones", "statement": "For a line object with two different ends: :foot and :parameter give the position of the point of the line nearest to the given point; :distance to a point is the least distance from it to a point of the segment; :distance to another segment is the least distance between a point of each; :common-perpendicular gives the one nearest pair of points of two lines that are not parallel; line-intersection gives the one place where two lines cross in the plane (nil if there is none or, when asked, if it is not on both segments); line-intersection3 the nearest places of two lines in space (nil for parallel lines); :colinear-line-intersection the common part of two segments of one line; farthest and farthest-pair find a farthest point and a farthest pair of a list.", "quantifier": "All points and lines with real coordinates (rounding left out), all lists of points.", "why_tests_cant": "Which of the nine cases of the nearest pair of two segments (inner point, end point, parallel) applies depends on the whole configuration; a test compares a few configurations with hand-computed numbers.", "anchors": ["lisp/geo/geopack.l: line :parameter :point :foot :distance-point :distance-line :common-perpendicular :colinear-line-intersection, farthest, farthest-pair", "lisp/geo/intersection.c: LINEINTERSECTION, LINEINTERSECTION3"]}
{"id": "C92", "title": "clipping to the viewport leaves exactly the visible part of a segment", "statement": "homo-viewport-clip of two points in homogeneous coordinates gives the ends, in order, of exactly the part of the segment inside the viewing volume, and nil exactly when no point of it is inside; viewportclip does the same for the viewing pyramid.", "quantifier": "All pairs of points with real coordinates (rounding left out), with three or four components.", "why_tests_cant": "Each of six planes may cut either end, in any combination and order; a test shows a few of the combinations, and a wrong answer is a line that is drawn a little wrong.", "anchors": ["lisp/geo/intersection.c: VPCLIP, windowcoords, HOMO_VPCLIP"]}
{"id": "C93", "title": "bounding boxes are the smallest ones, and planes give nearest points", "statement": "A bounding box made from points is the smallest box with all of them in it (minimal-box stores the same corners and returns their distance); :intersection is the box of the common points (with a tolerance: of the points not further than that outside either) and nil exactly when there are none, as :intersection-p says; :union is the smallest box with both in it; :extream-point is a point of the box farthest in a direction, :below tells whether one box is entirely lower than another, :corners are the eight corners. Asking about a box does not change it. A plane made from a normal vector and a point has :foot on it as the nearest point, :plane-distance as the signed distance, and :intersection as the place where a line meets it.", "quantifier": "All lists of points, all boxes, tolerances and directions, all planes, points and lines with real coordinates (rounding left out).", "why_tests_cant": "A box that is a little too large or too small passes tests on a few point sets; what is claimed is a least upper bound over all boxes.", "anchors": ["lisp/geo/geopack.l: bounding-box :init :init2 :grow :intersection :union :intersection-p :extream-point :below :corners, polygon :boxtest, plane :init :foot :plane-distance :intersection", "lisp/c/matrix.c: VMIN, VMAX, VLESSP, MINIMALBOX"]}
{"id": "C94", "title": "polygons have the right area, centre of gravity, normal and convexity, and points are placed rightly", "statement": "For a polygon given by its vertices, :area does not depend on the vertex the list starts with, is the sum of the areas of the pieces when the polygon is cut between two vertices, and is half of base times height for a triangle (positive when it runs counterclockwise around the normal). :centroid gives the centre of gravity: the mean of the corners for a triangle, the mean weighted with the areas for a polygon cut in two. The normal :init computes has length one, sees the polygon counterclockwise, and is the normal of the plane of the vertices. A polygon is marked convex exactly when it is convex. :insidep of a convex polygon answers :inside for the points of the polygon, :outside for the others and :border for those on an edge, up to its tolerance.", "quantifier": "All lists of vertices, all planes, all points of the plane and all tolerances, with real coordinates (rounding left out).", "why_tests_cant": "The area and the centre of gravity of all polygons are sums over any number of vertices, and inside and outside are about all points of the plane; tests use a few squares and triangles and points well away from the edges.", "anchors": ["lisp/geo/geopack.l: triangle, vector-mean, face-normal-vector, polygon :init :reset-normal :area :centroid :set-convexp :insidep", "lisp/c/matrix.c: SCA3PROD"]}
{"id": "C95", "title": "floor, ceiling, round and truncate give the right integer", "statement": "(floor x) is the largest integer not above x, (ceiling x) the smallest not below x, (round x) the nearest one, even when two are equally near, and (truncate x) the integer part towards zero; integers are returned unchanged.", "quantifier": "All finite floats and all integers.", "why_tests_cant": "The number of binary digits and the size of the argument decide which conversion is taken, and where it loses digits or overflows; tests use small numbers, for which all of them work.", "anchors": ["lisp/c/arith.c: ROUND, FLOOR, CEILING, TRUNCATE", "lisp/c/big.c: eusfloat_to_big"]}
{"id": "C96", "title": "mod gives the remainder, and max and min give an extreme argument", "statement": "(mod a b) is a less a whole multiple of b, smaller in size than b and on the side of zero that a is on, for integers and floats alike. (max ...) and (min ...) equal one of their arguments, and no argument is larger (smaller).", "quantifier": "All pairs of numbers with a divisor other than zero; all non-empty lists of integers and floats.", "why_tests_cant": "Integers of one word, longer integers and floats take different paths, and mixing them converts; a list can mix them in any order. Tests try a few small integers.", "anchors": ["lisp/c/arith.c: MOD, MAX, MIN", "lisp/c/big.c: big_to_float", "lisp/c/eus.h: ckfltval, makeflt"]}
{"id": "C97", "title": "format writes its control string with each directive replaced by the text of its arguments", "statement": "(format nil control args...) returns, and (format stream control args...) writes, the control string in which ~A, ~S, ~D, ~X, ~O, ~C, ~F, ~E, ~G, ~%, ~T and ~~ stand for the text of the next argument (or a newline, tab or tilde), in fields of the width that the parameters (or V arguments) ask for; other characters are copied. A directive without an argument left and a control string that ends within a directive are errors.", "quantifier": "All control strings, all lists of arguments, all parameters.", "why_tests_cant": "Control strings are a small language with optional numbers, commas and V in all combinations, and arguments are of all types and widths; tests have a few strings without parameters.", "anchors": ["lisp/c/lispio.c: XFORMAT", "lisp/c/printer.c: printint, printbig, printnum", "lisp/c/eusstream.c: writech, writestr"]}
{"id": "C98", "title": "quaternions are rotations", "statement": "A quaternion made by :rotation from an angle and an axis turns vectors by that angle about that axis (:transform-vector), :inverse-transform-vector turns them back, and :angle and :axis give the angle and the unit axis. The product q* (and :concat) of two of them is one rotation after the other, is associative, multiplies norms, and :inverse-quaternion is the inverse.", "quantifier": "All angles, all axes, all vectors and all quaternions, with real components (rounding left out).", "why_tests_cant": "That one formula is a rotation for all angles and axes, and that products compose, are statements about all of a continuum; tests turn a vector or two about a coordinate axis.", "anchors": ["lib/llib/quaternion.l: quaternion :init :norm :conjugate :inverse-quaternion :rotation :transform-vector :inverse-transform-vector :angle :axis :concat, q*", "lisp/c/matrix.c: VNORMALIZE"]}
{"id": "C99", "title": "infix expressions mean what they do in mathematics", "statement": "The form that the infix translator (the % macro: expression) makes of an infix expression has the value of the expression, with the usual precedences of comparison, sum, product and power, operators of one precedence taken from left to right, calls f(x y), elements a[i j], parentheses and signs. Sharing repeated calls in temporaries does not change the value, and no temporary is used before it is bound.", "quantifier": "All expressions of the grammar, of any size and nesting, and all kinds of arithmetic in which subtracting is adding the negative and small powers are products.", "why_tests_cant": "Precedence, grouping of equal operators, and the sharing of repeated subexpressions in let* (or their substitution) interact; a test has one expression with a few operators, the statement is on all trees.", "anchors": ["lisp/l/mathtran.l: expression (letvar, factor1, factor, term, expr, expr-list, rel-expr, reconstruct-form)"]}
{"id": "C100", "title": "messages reach the nearest method, send-super the next, and slots keep their places in subclasses", "statement": "A message runs the method last defined for its selector in the nearest class, from the class of the receiver upwards, that has one. If there is none it goes to the first slot, in the order of the slots, whose :forward names the selector and whose object understands it; failing that to :nomethod with the selector and the arguments; failing that it is an error. send-super in a method runs the next method for the selector further up, so that a chain of send-supers runs every method once. A slot has the same place for (obj . slot), interpreted methods, compiled methods and accessors of the class that defines it, in instances of all its subclasses. Every search ends.", "quantifier": "All sequences of class and method definitions, all classes, selectors, receivers, slots and heaps.", "why_tests_cant": "Depth of inheritance, overriding, redefinition of methods, forwarding and the layout of slots combine without bound; a test has a few classes.", "anchors": ["lisp/l/common.l: make-class, send-super", "lisp/c/leo.c: addmethod, findmethod, findforward, SEND, SEND_IF_FOUND, SENDMESSAGE, getslotindex", "lisp/c/eval.c: getobjv", "lisp/c/makes.c: makeobject", "lisp/comp/comp.l: compiled slot references"]}
{"id": "C101", "title": "the line editor edits at the cursor and shows the line; the history gives back the commands", "statement": "After any keys the line being edited is the text the keys describe (moving, inserting and deleting at the cursor, clearing), the row on the screen shows that text with the cursor at the place where the next key acts, and return gives the text. In a history of n entries each of the last commands is given back under its number and by counting back, and a pattern finds the latest earlier command that contains it, letters of either case being the same.", "quantifier": "All lines, all sequences of keys; all sizes of history, all sequences of commands, numbers and patterns.", "why_tests_cant": "The screen is updated incrementally, so an error shows only after particular sequences of keys; the array of the history slides when it is full; tests try a few sequences.", "anchors": ["lisp/l/history.l: refresh-line, line-*, line-edit, new-history, add-history, get-history", "lisp/l/tty.l: cursor-pos, erase-eol", "lisp/l/common.l: list-insert, list-delete", "lisp/l/string.l: substringp"]}
{"id": "C102", "title": "rpy-angle and euler-angle undo rpy-matrix and euler-matrix", "statement": "rpy-matrix turns about x, then y, then z of the world, euler-matrix about z, then y, then z of the turned frame. Both lists of angles that rpy-angle gives for a rotation matrix make that matrix again with rpy-matrix, also when the pitch is upright, and the first list is the angles the matrix was made with if these are in the usual ranges. The same holds for euler-angle and euler-matrix.", "quantifier": "All rotation matrices, all angles.", "why_tests_cant": "Angles are recovered by arc tangents of combinations of elements whose signs and degenerate cases (gimbal lock, tilt near zero) tests meet only at a few points.", "anchors": ["lisp/l/array.l: rpy-matrix, euler-matrix", "lisp/c/matrix.c: INV_RPY, INV_EULER, ROTATE_MATRIX, ROTATION_MATRIX"]}
{"id": "C103", "title": "quickhull gives the convex hull", "statement": "The corners quickhull returns are points of the given list, none of them twice; every given point is in their convex hull, so the hull of the corners is the hull of the points; and going around the corners in order, counter-clockwise, every given point is to the left of every side or on it, so the polygon is convex.", "quantifier": "All normals and all non-empty lists of points of a plane with that normal, in any order, with points at the same place, on a line, or on a side.", "why_tests_cant": "Errors show only for particular configurations: ties between farthest points, points on the line of a side or at equal x, deep recursion on one side; random points meet none of them.", "anchors": ["lisp/geo/primt.l: find-extream, leftmost-point, rightmost-point, left-points, right-points, quickhull-left, quickhull-right, quickhull", "lisp/geo/geopack.l: triangle"]}
{"id": "C104", "title": "cyclic timers run once for each interval, and count what they miss", "statement": "However the ticking thread and the thread of the timer interleave, and whenever the timer is stopped and started: run-count is the number of intervals that passed while it was running; the function is not called more often than that; and every interval is either a call of the function or counted as missed. A deleted timer is not called any more.", "quantifier": "All intervals of at least one tick, all interleavings of ticks, starts, stops, deletion and the steps of the timer's thread.", "why_tests_cant": "The outcome depends on where the other thread is when a tick comes; a test cannot choose the interleaving, and lost ticks are rare.", "anchors": ["lisp/l/cyclic.l: itimer :init :tick :run :thread-waiting :stop :start :delete, itimer-handler, timer-func", "lisp/c/mthread.c: SEMA_POST, SEMA_WAIT"]}
{"id": "C105", "title": "defsystem loads and compiles modules in an order in which each finds what it needs", "statement": "operate-on-system in mode :load loads every module of the system exactly once, after the modules it needs for loading. In mode :compile it compiles, each once, exactly the modules that are out of date and those for which a reason of recompilation is compiled; when a module is compiled, those its compilation needs are loaded and have not been compiled since they were loaded; and whenever a module is loaded those it needs are loaded likewise. :recompile does the same for all modules.", "quantifier": "All systems of modules with any dependencies and any dates of files.", "why_tests_cant": "Orders and sets of changed files are too many to test; a wrong order often goes unnoticed because old binaries or earlier definitions are still there.", "anchors": ["lib/llib/defsystem.l: make-transformations, make-compile-transformation, make-load-transformation, compile-filter, operate-on-system"]}
{"id": "C106", "title": "argument-parser gives each argument the value its occurrences mean", "statement": "After :parse-args the value of an argument depends only on its default and its own occurrences on the command line, under any of its flags, in order: the last value for :store and functions, t or nil for :store-true and :store-false, the constant, the number of occurrences, or the default followed by all values for :append; a value is the text behind the first =, read if :read is given. :parse-args signals an error exactly if a flag is unknown, an occurrence has a value where none is taken or none where one is, a value fails :check or :choices, or a required argument does not occur.", "quantifier": "All declarations of arguments that :add-argument accepts, and all command lines.", "why_tests_cant": "Errors show only for particular combinations of flags, synonyms, actions and their order on the command line.", "anchors": ["lib/llib/argparse.l: flag-name-p, check-flag, split-flag, make-flag-dest, argparse-argument, argument-parser :add-argument, :parse-args"]}
{"id": "C107", "title": "remove-colinears-from-circuit leaves the polygon as it is", "statement": "remove-colinears-from-circuit returns some of the corners it is given, in the same order; the polygon they make encloses the same area; no corner at a bend is left out, and no corner of the result is on a line with its two neighbours.", "quantifier": "All lists of corners of a closed polygon in space.", "why_tests_cant": "Runs of corners on a line of any length and position, also around the end of the list, and corners at the same place, are needed to see the errors.", "anchors": ["lisp/geo/primt.l: colinear-p, remove-colinears-from-circuit"]}
{"id": "C108", "title": "find-colinear-points finds the points that are between two others", "statement": "find-colinear-points gives exactly those of the points that are on the segment between two others; when they are removed none of the rest is.", "quantifier": "All lists of points, in any order.", "why_tests_cant": "Which of three points is the middle one is decided by a quotient that depends on their order in the list; all orders and positions would have to be tried.", "anchors": ["lisp/geo/primt.l: colinear-p, find-colinear-points"]}
