{"id": "C01", "title": "Compiler bit set behaves as a finite set of naturals", "statement": "After any sequence of put/delete/union/intersect/difference/clear/duplicate on bit sets, membership answers are exactly those of the mathematical set built by the same operations; no operation changes the membership of an element it does not name, and the second operand of a binary operation keeps its contents.", "quantifier": "all finite operation sequences, all elements (any size_t below 2^64), all set sizes", "why_tests_cant": "Set contents and growth boundaries (word edges, unequal lengths) form an unbounded space; tests sample a few sizes.", "anchors": ["util/bitset.c: bsput, bsdel, bsunion, bsintersect, bsdiff, bsclear, bsdup, eqsz", "util/util.h: bshas"]}
{"id": "C02", "title": "Bit set iteration visits every member once, in increasing order", "statement": "The documented loop `for (i = 0; bsiter(s,&i); i++)` yields exactly the members of s, each exactly once, in strictly increasing order, and terminates; bscount equals the number of values it yields.", "quantifier": "all bit sets, all start positions", "why_tests_cant": "The iterator skips by word and uses a de Bruijn-like nibble table; errors show only for particular bit patterns out of 2^64 per word.", "anchors": ["util/bitset.c: bsiter, firstbit, bscount"]}
{"id": "C03", "title": "Bit set equality, emptiness and subset tests decide the set relations", "statement": "bseq answers true iff both sets have the same members irrespective of how many words each allocated; bsisempty iff no members; bsissubset(set, sub) iff every member of its first argument is in its second.", "quantifier": "all pairs of bit sets, including different allocated lengths", "why_tests_cant": "Trailing zero words make representation non-canonical, so the space of pairs is unbounded.", "anchors": ["util/bitset.c: bseq, bsisempty, bsissubset, eqsz"]}
{"id": "C04", "title": "Compiler hash table is a finite map", "statement": "After any sequence of htput/htdel, htget(k) returns the value of the latest htput of a key equal to k not followed by htdel, and NULL if there is none; hthas agrees; htkeys lists each present key exactly once.", "quantifier": "all operation histories, all hash functions, all keys", "why_tests_cant": "Bugs need a specific interleaving of collisions, tombstones and growth; the set of histories is infinite.", "anchors": ["util/htab.c: htput, htget, htdel, hthas, htkeys, grow, htidx"]}
{"id": "C05", "title": "Hash table operations always terminate", "statement": "Every probe loop in htput/htget/htdel ends: the table always keeps at least one never-used slot, whatever mix of inserts and deletes happened before.", "quantifier": "all operation histories, all hash functions", "why_tests_cant": "Non-termination appears only when the table is saturated with tombstones in a particular pattern.", "anchors": ["util/htab.c: htput, htidx, grow"]}
{"id": "C06", "title": "Serialised integers, strings and floats read back unchanged", "statement": "Reading what wrint/wrbyte/wrbool/wrstr/wrlenstr/wrflt wrote yields the same value and consumes exactly the bytes written, for every value in the documented range (32-bit ints, NUL-free strings, NULL string, arbitrary byte strings, 64-bit float images).", "quantifier": "all values in range, any following stream contents", "why_tests_cant": "2^32 / 2^64 / unbounded value spaces with sign extension and framing.", "anchors": ["util/pack.c: be32, host32, be64, host64, wrint, rdint, wrstr, rdstr, wrlenstr, rdlenstr, wrflt, rdflt, wrbool, rdbool"]}
{"id": "C07", "title": "Alignment helper rounds up to the next multiple", "statement": "For a power of two a, align(sz,a) is the least multiple of a that is >= sz (when that fits in size_t); align(sz,0) = sz.", "quantifier": "all sizes and all power-of-two alignments", "why_tests_cant": "Unbounded arithmetic domain with mask tricks.", "anchors": ["util/util.c: align"]}
{"id": "C08", "title": "Dynamic list helpers implement sequence edits", "statement": "lappend/lpop/linsert/ldel/lcat/lfree change the sequence exactly as append-at-end, remove-last, insert-at-index, delete-at-index, concatenate and clear, leaving all other elements in order.", "quantifier": "all lists, all valid indices", "why_tests_cant": "Index arithmetic in memmove over unbounded lengths.", "anchors": ["util/alloc.c: lappend, lpop, linsert, ldel, lcat, lfree"]}
{"id": "C09", "title": "A compiled match runs the first arm whose pattern matches", "statement": "For a match statement that the compiler accepts, executing the generated decision tree on any value of the scrutinee type selects the body of the first arm, in source order, whose pattern matches that value according to the language manual (wildcards, gaps, literals, strings, unions, tuples, structs, arrays, constants, pointers, or-patterns).", "quantifier": "all pattern matrices, all values of the scrutinee type", "why_tests_cant": "Decision tree compilation is a combinatorial transformation; tests cover a handful of matrices.", "anchors": ["mi/match.c: addrec, genfrontier, project, compile, genmatchcode, genmatch"]}
{"id": "C10", "title": "Exhaustiveness check admits only matches that cover every value", "statement": "If the compiler does not report 'nonexhaustive pattern set', then every value of the scrutinee type is matched by at least one arm.", "quantifier": "all accepted pattern matrices, all values", "why_tests_cant": "Requires quantifying over every value for every matrix.", "anchors": ["mi/match.c: verifymatch, nconstructors, gendtree"]}
{"id": "C11", "title": "Unreachable-arm error is reported only for arms that no value can reach, and every such arm", "statement": "'pattern matched by earlier case' is reported for an arm only if every value matching it is matched by an earlier arm.", "quantifier": "all pattern matrices", "why_tests_cant": "Universal claim about all values for each arm.", "anchors": ["mi/match.c: gendtree (refcnt), compile"]}
{"id": "C12", "title": "Match compilation terminates without crashing", "statement": "Compilation of a finite list of patterns always terminates and never dereferences an absent default branch.", "quantifier": "all pattern matrices", "why_tests_cant": "Recursion on derived matrices and sharing lookup; only particular shapes of sharing trigger the failing comparison.", "anchors": ["mi/match.c: compile, dtreusable, project"]}
{"id": "C13", "title": "Constant folding preserves the value of integer expressions", "statement": "Replacing an integer expression by its folded form does not change the value computed at its type (with the wrap-around of that type's width and its signedness), for every assignment of the variables.", "quantifier": "all expressions over +,-,*,/,%,<<,>>,&,|,^, unary -, casts; all variable valuations; all integer types", "why_tests_cant": "Infinite expression space and 2^64 values per leaf.", "anchors": ["parse/fold.c: fold, foldcast, getintlit, isintval"]}
{"id": "C14", "title": "Reaching-definitions analysis is sound", "statement": "If some control-flow path leads from a definition of a variable to a program point without another definition of that variable, that definition is in the computed set for the point.", "quantifier": "all control-flow graphs, all paths", "why_tests_cant": "Paths through loops are infinite in number.", "anchors": ["mi/reaching.c: reaching, genkill, collectdefs"]}
{"id": "C15", "title": "Reaching-definitions analysis is exact and terminates", "statement": "The iteration stops, and every definition it reports as reaching a block really reaches it along some path (least fixed point).", "quantifier": "all control-flow graphs", "why_tests_cant": "Termination and minimality are claims about every graph.", "anchors": ["mi/reaching.c: reaching"]}
{"id": "C16", "title": "Use of a never-assigned variable is rejected", "statement": "If a scalar non-constant variable can be read on some path before any assignment to it, compilation fails with 'used before definition'.", "quantifier": "all functions, all paths", "why_tests_cant": "Universal over control-flow paths.", "anchors": ["mi/dfcheck.c: checkreach, checkundef", "mi/reaching.c: assignee"]}
{"id": "C17", "title": "A value-returning function cannot fall off its end", "statement": "If compilation of a function with a non-void return type passes the check, every path from entry to the function's end goes through a return (or a point marked dead).", "quantifier": "all control-flow graphs", "why_tests_cant": "Universal over paths.", "anchors": ["mi/dfcheck.c: checkret, checkpredret", "mi/cfg.c: mkcfg"]}
{"id": "C18", "title": "Aggregate layout: fields are aligned, disjoint and inside the aggregate", "statement": "For every struct and tuple type, each field's offset is a multiple of its alignment, fields do not overlap, all fields end within the size, and the size is a multiple of the alignment; so array elements are aligned too.", "quantifier": "all finitely nested types smaller than 2^64 bytes", "why_tests_cant": "Unbounded type nesting.", "anchors": ["6/typeinfo.c: tysize, tyalign, tyoffset", "6/simp.c: alignto"]}
{"id": "C19", "title": "Union layout: tag and every payload fit without overlap", "statement": "For every union type, the payload of every constructor lies at an aligned offset past the 4-byte tag and ends inside the union's size.", "quantifier": "all union types smaller than 2^64 bytes", "why_tests_cant": "Unbounded payload types.", "anchors": ["6/typeinfo.c: tysize, tyalign", "6/simp.c: uconid, ucon, uget (alignto(Wordsz, ...))"]}
{"id": "C20", "title": "Integer literals denote their written value", "statement": "An integer literal with base prefix 0x/0o/0b or none, with underscores anywhere among its digits, lexes to the number its digits denote in that base; digits outside the base are rejected; suffixes select exactly the documented type.", "quantifier": "all digit strings that denote a value below 2^64", "why_tests_cant": "Unbounded literal space.", "anchors": ["parse/tok.c: number, numlit, hexval"]}
{"id": "C21", "title": "Character and string literals decode to the intended bytes", "statement": "A string literal without errors yields exactly the byte sequence obtained by replacing each escape by its byte or the UTF-8 encoding of its code point and copying every other byte; a character literal yields the code point it spells.", "quantifier": "all string and character literals", "why_tests_cant": "Unbounded strings, 0x110000 code points.", "anchors": ["parse/tok.c: strlit, charlit, decode, unichar, appendc, encode, readutf"]}
{"id": "C22", "title": "Nested comments are skipped exactly and keep line numbers right", "statement": "Skipping a comment consumes text up to the matching close of the outermost comment, and the line counter advances by the number of newlines consumed.", "quantifier": "all nested comment texts", "why_tests_cant": "Arbitrary nesting depth.", "anchors": ["parse/tok.c: eatcomment, eatspace"]}
{"id": "C23", "title": "Unification makes the two types equal", "statement": "When unification of two types succeeds, both types denote the same type afterwards, and every previously established equality still holds.", "quantifier": "all types, all prior substitutions", "why_tests_cant": "Unbounded type terms and sharing.", "anchors": ["parse/infer.c: unify, occursin, occurs_rec, tf"]}
{"id": "C24", "title": "Infinite types are rejected", "statement": "Unifying a type variable with a type that contains it (other than through a pointer or slice) is reported as an error.", "quantifier": "all types and substitutions", "why_tests_cant": "Cycles can be of any length.", "anchors": ["parse/infer.c: unify, occursin, occurs_rec"]}
{"id": "C25", "title": "Register liveness is sound", "statement": "A virtual register that may be read later on some path before being overwritten is in the computed live set at that point.", "quantifier": "all instruction sequences and control-flow graphs", "why_tests_cant": "Universal over paths.", "anchors": ["6/ra.c: liveness, udcalc, uses, defs"]}
{"id": "C26", "title": "Register allocation never gives interfering values the same register", "statement": "When colouring finishes without spills, any two virtual registers connected in the interference graph have physical registers with different colours, and precoloured registers keep theirs.", "quantifier": "all interference graphs and coalescing histories", "why_tests_cant": "Graph space is unbounded.", "anchors": ["6/ra.c: addedge, paint, combine, getalias, adjavail"]}
{"id": "C27", "title": "Exported types survive the use-file round trip", "statement": "Reading back a pickled type yields a structurally identical type (kind, names, visibility, element types, members, constructors, array sizes).", "quantifier": "all types the compiler can export", "why_tests_cant": "Unbounded type nesting.", "anchors": ["parse/use.c: typickle, tyunpickle, wrtype, rdtype, wrucon, rducon"]}
{"id": "C28", "title": "Library hash table is a finite map", "statement": "After any sequence of htput/htdel on std.htab, htget returns exactly the value last put and not deleted, hthas and htcount agree, iteration and htkeys enumerate exactly the present keys.", "quantifier": "all histories, hash and equality instances", "why_tests_cant": "Infinite histories, collisions with tombstones and growth.", "anchors": ["lib/std/htab.myr: htput, htdel, htget, htgetv, hthas, htkeys, htcount, resize, idx"]}
{"id": "C29", "title": "Library bit set behaves as a finite set", "statement": "std.bsput/bsdel/bshas/bsunion/bsintersect/bsdiff/bsclear/bsdup behave as set insertion, removal, membership, union, intersection, difference, clearing and copying; bsput/bsdel report whether they changed the set; iteration yields the members in order; equality, subset and hash respect set contents.", "quantifier": "all sets of any sizes", "why_tests_cant": "Different allocated lengths and word edges.", "anchors": ["lib/std/bitset.myr"]}
{"id": "C30", "title": "std.sort returns a sorted permutation", "statement": "For a total preorder given by cmp, std.sort permutes its slice in place so that no element compares After a later one, and it terminates.", "quantifier": "all slices, all total preorders", "why_tests_cant": "n! input orders for each n.", "anchors": ["lib/std/sort.myr: sort, heapify, siftdown"]}
{"id": "C31", "title": "std.bsearch finds a matching element iff there is one; lsearch finds the first", "statement": "On a slice sorted with respect to the key, bsearch returns Some i only if element i compares Equal, returns None only if no element does, never indexes outside the slice and terminates; lsearch returns the first such index on any slice.", "quantifier": "all slices, keys and comparison functions consistent with the order", "why_tests_cant": "Boundary arithmetic for every length.", "anchors": ["lib/std/search.myr"]}
{"id": "C32", "title": "UTF-8 encoding round-trips", "statement": "For every code point c below 0x200000, std.encode writes charlen(c) bytes whose first-character decoding is c and leaves the rest of the string untouched; distinct code points have distinct encodings and no encoding is a prefix of another; iteration over any byte string by charstep terminates and consumes every byte.", "quantifier": "all code points, all byte strings", "why_tests_cant": "2^21 code points and unbounded strings.", "anchors": ["lib/std/utf.myr: charlen, encode, charstep, decode", "lib/std/striter.myr: bychar"]}
{"id": "C33", "title": "Fixed-width integer encoders and decoders are inverse", "statement": "getle/getbe N of what putle/putbe N wrote is the value truncated to N bits; hosttonet is an involution that reverses the bytes.", "quantifier": "all values and widths 8..64", "why_tests_cant": "2^64 values.", "anchors": ["lib/std/putint.myr", "lib/std/getint.myr", "lib/std/endian.myr"]}
{"id": "C34", "title": "Substring search returns the first (last) occurrence", "statement": "strfind returns the least index at which the needle occurs and None iff it does not occur; strrfind the greatest; neither reads out of bounds.", "quantifier": "all haystacks and needles", "why_tests_cant": "Unbounded strings.", "anchors": ["lib/std/strfind.myr"]}
{"id": "C35", "title": "Splitting and joining strings are inverse; replace rewrites every occurrence", "statement": "Joining the pieces of strsplit(s, d) with d gives s back, no piece contains d, and strreplace(s, n, r) equals joining the pieces of s split at n with r.", "quantifier": "all strings and non-empty delimiters", "why_tests_cant": "Unbounded strings.", "anchors": ["lib/std/strsplit.myr", "lib/std/strjoin.myr", "lib/std/strreplace.myr"]}
{"id": "C36", "title": "String comparison is a total lexicographic order; prefix and suffix tests are exact", "statement": "strcmp decides byte-wise lexicographic order (hence antisymmetric, transitive, total, Equal iff identical); hasprefix/hassuffix hold iff the string starts/ends with the argument.", "quantifier": "all byte strings", "why_tests_cant": "Unbounded strings.", "anchors": ["lib/std/cmp.myr", "lib/std/hasprefix.myr", "lib/std/hassuffix.myr", "lib/std/sleq.myr"]}
{"id": "C37", "title": "Formatted integers parse back to themselves", "statement": "For every 64-bit signed or unsigned value, intparse of its default (base 10, unpadded) formatting returns the value; with base 16/8/2 intparsebase does.", "quantifier": "all 64-bit values, all bases 2..16", "why_tests_cant": "2^64 values.", "anchors": ["lib/std/intfmt.myr: intfmt", "lib/std/intparse.myr: intparse, intparsebase, doparse"]}
{"id": "C38", "title": "Big integer arithmetic is exact", "statement": "bigadd, bigsub, bigmul, bigdiv/bigmod/bigdivmod, bigshl, bigshr, bigcmp compute the mathematical integer results (division truncating toward zero, remainder with the dividend's sign), and results are normalised (no leading zero limbs, sign 0 iff value 0).", "quantifier": "all integers of any size", "why_tests_cant": "Carry/borrow/quotient-estimate corner cases in an unbounded domain.", "anchors": ["lib/std/bigint.myr"]}
{"id": "C39", "title": "Mutexes are mutually exclusive", "statement": "At no time do two threads hold the same mutex, whatever the interleaving of lock, trylock and unlock by any number of threads.", "quantifier": "all schedules, any number of threads", "why_tests_cant": "Interleavings are unbounded; tests see a few.", "anchors": ["lib/thread/mutex+futex.myr", "lib/thread/mutex.myr"]}
{"id": "C40", "title": "Futex mutex loses no wake-up", "statement": "Whenever the mutex is free and some thread sleeps waiting for it, a wake-up for it is already under way or another thread that will wake it is about to acquire; so the set of waiting threads is never all asleep with the mutex free.", "quantifier": "all schedules, any number of threads, spurious wake-ups included", "why_tests_cant": "The failing schedule, if any, is a specific race.", "anchors": ["lib/thread/mutex+futex.myr: mtxlock, mtxunlock", "lib/thread/futex+linux.myr"]}
{"id": "C41", "title": "Semaphores never admit more waits than posts allow", "statement": "The number of completed semwait/successful semtrywait calls never exceeds the initial value plus the number of sempost calls, and no waiter sleeps while the value is positive with no wake-up pending.", "quantifier": "all schedules, any number of threads", "why_tests_cant": "Unbounded interleavings.", "anchors": ["lib/thread/sem+futex.myr", "lib/thread/sem.myr"]}
{"id": "C42", "title": "wgwait returns only after all posts", "statement": "wgwait on a group made with n returns only after n wgpost calls have happened, and sleeping waiters are woken when the count reaches zero.", "quantifier": "all schedules, any number of waiters and posters", "why_tests_cant": "Unbounded interleavings.", "anchors": ["lib/thread/waitgrp+futex.myr", "lib/thread/waitgrp.myr"]}
{"id": "C43", "title": "Read-write locks exclude writers from everyone else", "statement": "No reader holds the lock while a writer does and no two writers hold it at once.", "quantifier": "all schedules, any number of threads", "why_tests_cant": "Unbounded interleavings.", "anchors": ["lib/thread/rwlock+futex.myr", "lib/thread/rwlock.myr"]}
{"id": "C44", "title": "Thread queue delivers every item once, in FIFO order", "statement": "Items returned by qget are exactly the items passed to qput, each once, in the order the puts took effect.", "quantifier": "all schedules, any number of producers and consumers", "why_tests_cant": "Unbounded interleavings.", "anchors": ["lib/thread/queue.myr"]}
{"id": "C45", "title": "Suffix swap yields the renamed file", "statement": "swapsuffix(s,suf,swap) gives stem+swap when s = stem+suf with a non-empty stem, otherwise s+swap; the result with its terminator always fits the buffer.", "quantifier": "all strings and buffer sizes", "why_tests_cant": "Strings of every length relative to suffix and buffer.", "anchors": ["util/util.c: swapsuffix", "6/main.c"]}
{"id": "C46", "title": "The control-flow graph covers every execution", "statement": "Every statement that some execution of a function body reaches is in the graph the compiler builds and trims, and each execution step stays inside a block or follows an edge of the graph from the end of a block to the start of another.", "quantifier": "all flattened function bodies and executions", "why_tests_cant": "Arbitrary jump structure; trimming must never remove reachable code.", "anchors": ["mi/cfg.c: mkcfg, addnode, addlabel, trim, trimdead, noexit, delete"]}
{"id": "C47", "title": "Iterating characters with offsets", "statement": "Iterating a string with std.bycharoff terminates without an out-of-range slice on every byte string and, on UTF-8 text, visits each character paired with the offset at which it starts, as documented.", "quantifier": "all byte strings; all sequences of code points", "why_tests_cant": "Unbounded strings with every mix of encodings.", "anchors": ["lib/std/striter.myr: charoffiter, bycharoff"]}
{"id": "C48", "title": "Grapheme stepping covers the string", "statement": "std.graphemestep splits every byte string in two without an out-of-range slice, whatever the width table, and takes at least one byte of a non-empty string.", "quantifier": "all byte strings, all character width tables", "why_tests_cant": "Malformed byte sequences of unbounded length.", "anchors": ["lib/std/utf.myr: graphemestep", "lib/std/striter.myr: graphemeiter"]}
{"id": "C49", "title": "A readers-writer lock waiter is not left asleep while the lock is free", "statement": "Whenever nobody holds the lock and some thread waits in rdlock or wrlock, the threads already inside the library can give the lock to one of them without any new call being made.", "quantifier": "all schedules, any number of threads, both futex behaviours (Linux, OS X)", "why_tests_cant": "A lost wake-up depends on one interleaving among unboundedly many.", "anchors": ["lib/thread/rwlock+futex.myr", "lib/thread/futex+linux.myr: ftxwait", "lib/thread/futex+osx.myr: ftxwait"]}
{"id": "C50", "title": "Try operations on a readers-writer lock do not wait", "statement": "tryrdlock and trywrlock return without waiting for another thread, whatever state the lock is in.", "quantifier": "all reachable lock states, both implementations", "why_tests_cant": "The blocking state needs a particular interleaving of three threads.", "anchors": ["lib/thread/rwlock+futex.myr: tryrdlock, trywrlock", "lib/thread/rwlock.myr: tryrdlock, trywrlock"]}
{"id": "C51", "title": "A consumer of a thread queue is not left asleep while an item is available", "statement": "If more puts than gets have returned and some get has not returned yet, the threads already inside the library can make a get return without any new call.", "quantifier": "all schedules, any number of producers and consumers, spurious wake-ups", "why_tests_cant": "A missed wake-up needs one particular interleaving.", "anchors": ["lib/thread/queue.myr", "lib/thread/condvar+linux.myr"]}
{"id": "C52", "title": "In the body of a match arm, the pattern's variables hold the matching parts of the value", "statement": "When an arm is chosen for a value, every variable its pattern captures holds, at the start of the arm's body, the part of the value at the variable's place in the pattern; with alternatives, in the first alternative that matches.", "quantifier": "all accepted lists of arms, all values of the scrutinee type", "why_tests_cant": "Whether captures are assigned depends on which branch of the shared decision tree leads to the arm.", "anchors": ["mi/match.c: genmatchcode, gendtree, addcapture"]}
{"id": "C53", "title": "Constant folding keeps the calls an expression makes", "statement": "Folding an expression does not remove, duplicate or reorder the function calls it makes.", "quantifier": "all integer expressions with calls, all results of calls", "why_tests_cant": "Only particular algebraic identities discard an operand; tests fold side-effect-free expressions.", "anchors": ["parse/fold.c: fold", "mi/flatten.c: flattenblk"]}
{"id": "C54", "title": "Closure environments: captured variables do not overlap", "statement": "In the environment of a closure, every captured variable has its own aligned place after the size word, inside the environment.", "quantifier": "all lists of captured variable types whose total size fits in the address space", "why_tests_cant": "Overlap depends on the alignment of each capture relative to all earlier ones.", "anchors": ["6/simp.c: envsize, closure environment copies", "6/typeinfo.c: tysize, tyalign"]}
{"id": "C55", "title": "Static data: the bytes emitted for a constant are the layout of its value", "statement": "The bytes the compiler emits for a constant initialiser have the size of its type, and each part of the value is found at the part's offset; elements not given are zero.", "quantifier": "all well-typed constant initialisers of any nesting", "why_tests_cant": "Padding depends on which indices are present and on the sizes of all preceding parts.", "anchors": ["6/blob.c: blobrec, blobstruct, blobpad"]}
{"id": "C56", "title": "Calls: a function reads its arguments where the caller puts them", "statement": "For every list of argument types, caller and callee use the same registers and stack positions; pieces are in existing registers or inside the reserved area, do not share storage, and hold the whole argument, aligned. Every call with sized arguments can be compiled.", "quantifier": "all lists of argument types, all positions of the variadic part", "why_tests_cant": "Placement depends on the classes of all earlier arguments; the combinations are unbounded.", "anchors": ["6/isel.c: gencall, placearg, sufficientregs, addarglocs, retrievearg", "6/typeinfo.c: classify, classify_recursive"]}
{"id": "C57", "title": "Stack frames: no two slots overlap", "statement": "Local variables, aggregate arguments received in registers and spilled registers have disjoint, aligned slots between the stack pointer and the frame pointer, and the stack pointer stays 16-byte aligned.", "quantifier": "all lists of local types, register arguments and spills whose total size fits in the address space", "why_tests_cant": "Offsets depend on the sizes of all earlier slots, including sizes that are not powers of two.", "anchors": ["6/simp.c: forcelocal", "6/isel.c: handlesmallstructargs, selfunc", "6/ra.c: addspill"]}
{"id": "C58", "title": "Operators are read greedily", "statement": "Text that is not a word, literal or blank is read as the longest operator or punctuation mark it starts with, and is reported as an error when it starts with none.", "quantifier": "all texts", "why_tests_cant": "The reading depends on up to three following bytes of arbitrary text.", "anchors": ["parse/tok.c: oper, toknext, match, unget"]}
{"id": "C59", "title": "Words are read whole and classified exactly", "statement": "A maximal run of letters, digits, underscores and dollars that does not start with a digit is one token: the keyword of that spelling if there is one, otherwise an identifier with exactly that name; no word makes the lexer write outside its buffer.", "quantifier": "all words of any length and all following texts", "why_tests_cant": "Words are unbounded; the keyword table is searched by bisection, which depends on its order.", "anchors": ["parse/tok.c: kwident, identstr, kwd, kwmap, identchar"]}
{"id": "C60", "title": "The lexer stops, covers the whole file and numbers lines", "statement": "Lexing any file stops. If it succeeds, the file is a sequence of blanks and tokens, with nothing skipped between or after them, the tokens returned are those in order, and each carries the line it starts on.", "quantifier": "all files", "why_tests_cant": "Quantifies over all byte sequences.", "anchors": ["parse/tok.c: toknext, yylex, tokinit, eatspace, mktok"]}
{"id": "C61", "title": "A program whose types fit is never refused", "statement": "If there is some way to read the type variables that makes every required pair of types equal and no type hold itself, then unifying the pairs in order reports no error, whatever it finds out is true in every such reading, and if the types are finite it ends.", "quantifier": "all collections of types, all sequences of required equalities and all readings", "why_tests_cant": "Quantifies over all type graphs and all readings of them.", "anchors": ["parse/infer.c: unify", "parse/infer.c: membunify", "parse/infer.c: structunify", "parse/infer.c: unionunify", "parse/infer.c: occursin", "parse/infer.c: tf"]}
{"id": "C62", "title": "Unification ends", "statement": "Unifying any two types ends, with success or an error report.", "quantifier": "all collections of types and sequences of unifications", "why_tests_cant": "Non-termination on recursive types is only seen if a test happens to build such a pair.", "anchors": ["parse/infer.c: unify", "parse/type.c: tyeq"]}
{"id": "C63", "title": "Types compare equal exactly if they are the same", "statement": "After any sequence of unifications, comparing two types answers, and the answer is yes exactly if the two unfold to the same type.", "quantifier": "all types, recursive ones included, all histories of unifications and comparisons before (results are cached)", "why_tests_cant": "Quantifies over all type graphs and all histories of the cache.", "anchors": ["parse/type.c: tyeq", "parse/type.c: tyeq_rec", "parse/type.c: equate", "parse/infer.c: unify"]}
{"id": "C64", "title": "Register allocation preserves behaviour", "statement": "A function printed with machine registers does what the function over virtual registers does: the same instructions are reached, with the same memory and effects, and every value still needed is in the machine register chosen for it.", "quantifier": "every function, every meaning of its instructions, every sequence of branches and every number of steps", "why_tests_cant": "The assembly printed depends on which moves are coalesced, which colours are free and which moves are dropped; a test sees one function on one input.", "anchors": ["6/ra.c regalloc", "6/gengas.c iprintf", "6/locs.c coreg"]}
{"id": "C65", "title": "Widening conversions clear the upper half", "statement": "Converting a 32-bit unsigned value to 64 bits gives a value below 2^32, equal to the 32-bit value, whatever registers are chosen.", "quantifier": "every function with such a conversion and every assignment of registers", "why_tests_cant": "The move that performs the conversion is dropped or kept depending on the registers chosen by the allocator.", "anchors": ["6/gengas.c iprintf", "6/ra.c dumbmov", "6/isel.c Ozwiden"]}
{"id": "C66", "title": "A use file defines every type, trait and declaration it mentions", "statement": "When a package is compiled, the use file it leaves for importers contains an entry for every non-builtin type and every user-defined trait mentioned by any entry, so that importing the package never fails with a missing type; and for every exported generic function it contains an entry for each top-level declaration the function's body uses, so that importers can specialise it. Tagging what to export always ends.", "quantifier": "All packages: any types (recursive ones included), traits, impls, declarations and function bodies, referring to one another in any way.", "why_tests_cant": "Which internal things must be exported follows from chains of references through types, traits and bodies of any length; tests cover the chains that the libraries happen to contain.", "anchors": ["parse/export.c:tagexports", "parse/export.c:tagnode", "parse/export.c:tagtype", "parse/export.c:tagtrait", "parse/use.c:writeuse", "parse/use.c:fixtypemappings", "parse/use.c:loaduse"]}
{"id": "C67", "title": "Allocated memory is private and stays intact", "statement": "A block returned by std.bytealloc (and so by std.alloc, std.slalloc and everything built on them) is non-null, 16-byte aligned, mapped over its whole length, and shares no byte with any other block not yet freed, however allocations, frees and writes by all threads are interleaved. Allocating or freeing one block never changes the contents of another. Allocation fails only when the system refuses memory, and freeing a block obtained from the allocator never crashes.", "quantifier": "all sequences of allocations, frees, writes into owned blocks and delayed unmappings, all sizes, and all answers of the operating system that hand out unused pages", "why_tests_cant": "Overlap shows only after particular sequences (a slab emptying while four are cached, a large block merged in front of a cached one); tests visit few of them and a silent overlap corrupts something else later.", "anchors": ["lib/std/bytealloc.myr:bytealloc", "lib/std/bytealloc.myr:bytefree", "lib/std/bytealloc.myr:bktalloc", "lib/std/bytealloc.myr:bktfree", "lib/std/bytealloc.myr:mkslab", "lib/std/bytealloc.myr:bigalloc", "lib/std/bytealloc.myr:bigfree", "lib/std/bytealloc.myr:bktnum"]}
{"id": "C68", "title": "Freed memory can be allocated again", "statement": "When a program frees blocks and then allocates blocks of the same sizes, the allocator serves them from the freed memory without asking the system for more.", "quantifier": "all reachable states of the allocator, all sizes", "why_tests_cant": "A leak inside the allocator changes no result; only the memory use of long runs, which unit tests do not measure.", "anchors": ["lib/std/bytealloc.myr:bktfree", "lib/std/bytealloc.myr:bigalloc", "lib/std/bytealloc.myr:bigfree", "lib/std/bytealloc.myr:mkslab"]}
{"id": "C69", "title": "Broken-down times follow the calendar", "statement": "An instant's year, month, day, hour, minute, second and microsecond are an existing date of the Gregorian calendar (extended backwards) and time of day, they denote exactly the instant's time shifted by its zone offset, and its weekday is the weekday of that date.", "quantifier": "all times and zone offsets", "why_tests_cant": "The conversion is a chain of truncating divisions that goes wrong only for particular days (ends of centuries, negative times); tests try a handful of dates.", "anchors": ["lib/date/date.myr:mkinstantoff"]}
{"id": "C70", "title": "An instant made from a date shows that date", "statement": "mkdate and mkdatetime with an existing date, a time of day and a zone return the instant that shows this date and time in the zone.", "quantifier": "all dates from the year 1, all times of day, all zone offsets", "why_tests_cant": "Tests use UTC and a few dates.", "anchors": ["lib/date/date.myr:mkdatetime", "lib/date/date.myr:mkdate", "lib/date/date.myr:recalc"]}
{"id": "C71", "title": "Date arithmetic", "statement": "Adding a duration moves an instant by exactly that duration and duration measures it. Adding or subtracting a period of days, hours, minutes or seconds moves it by that span; adding years or months keeps the rest of the date and the time of day whenever that date exists.", "quantifier": "all instants, all durations and periods, all zone offsets", "why_tests_cant": "Carries into other months and years and the interplay with the zone offset appear for particular combinations only.", "anchors": ["lib/date/date.myr:add", "lib/date/date.myr:sub", "lib/date/date.myr:addperiod", "lib/date/date.myr:subperiod", "lib/date/date.myr:duration"]}
{"id": "C72", "title": "Printed dates parse back", "statement": "An instant printed with a format that has all its fields and parsed with the same format is the same moment (to the second), with the same fields and zone offset.", "quantifier": "all instants and zone offsets", "why_tests_cant": "Tests print and parse a few instants, mostly in UTC.", "anchors": ["lib/date/fmt.myr:datefmt", "lib/date/fmt.myr:timezone", "lib/date/parse.myr:strparse", "lib/date/parse.myr:filldate", "lib/date/parse.myr:intval", "lib/date/parse.myr:tzoffset"]}
{"id": "C73", "title": "The zone offset is the one in force", "statement": "The offset found for a zone and a time is the one started by the last transition of the zone at or before that time.", "quantifier": "all tables of transitions in ascending order, all times", "why_tests_cant": "Depends on the zone files installed and on the time of the run.", "anchors": ["lib/date/zoneinfo+posixy.myr:findtzoff", "lib/date/date.myr:tzoff"]}
{"id": "C74", "title": "Regular expressions match exactly", "statement": "Executing a compiled pattern on a string reports a match exactly if the pattern matches the whole string, and the groups it reports are those of one way of matching it; it always returns.", "quantifier": "all patterns, strings and word-character tables", "why_tests_cant": "A pattern is compiled to a program run by a scheduler of threads that share visited states; a wrong drop of a thread shows only for particular patterns on particular strings, and non-termination cannot be observed by a test.", "anchors": ["lib/regex/compile.myr:gen", "lib/regex/compile.myr:genranges", "lib/regex/interp.myr:run", "lib/regex/interp.myr:step", "lib/regex/interp.myr:iexec"]}
{"id": "C75", "title": "Search finds the leftmost longest match", "statement": "Searching a string finds the first position at which the pattern matches, and the longest match there; the reported indices delimit it in the searched string; if nothing is reported the pattern matches nowhere.", "quantifier": "all patterns and strings", "why_tests_cant": "Wants comparing with every other position and every other way of matching.", "anchors": ["lib/regex/interp.myr:search", "lib/regex/interp.myr:isearch", "lib/regex/interp.myr:run"]}
{"id": "C76", "title": "A compiled pattern can be reused", "statement": "The result of using a compiled pattern does not depend on how it was used before.", "quantifier": "all patterns and all sequences of uses", "why_tests_cant": "The state left behind depends on the whole history of uses.", "anchors": ["lib/regex/interp.myr:cleanup", "lib/regex/interp.myr:sub", "lib/regex/interp.myr:suball"]}
{"id": "C77", "title": "Substitution replaces exactly the groups", "statement": "Substituting into a matching string replaces the text of each group and keeps everything else; substituting everywhere does so for every longest match from left to right, and both return.", "quantifier": "all patterns, strings and replacements", "why_tests_cant": "Depends on where groups lie relative to each other and on empty matches, for every pattern.", "anchors": ["lib/regex/interp.myr:sub", "lib/regex/interp.myr:suball", "lib/regex/interp.myr:dosubst"]}
{"id": "C78", "title": "Character classes stand for their characters", "statement": "A character class matches exactly the encodings of the characters in its ranges, a negated class those of all other characters, wherever the ranges lie and however they overlap.", "quantifier": "all lists of ranges and all characters", "why_tests_cant": "There are over a million characters and the byte ranges interact at the boundaries of the encoding.", "anchors": ["lib/regex/compile.myr:genranges", "lib/regex/compile.myr:bound", "lib/regex/compile.myr:merge", "lib/regex/compile.myr:negate", "lib/regex/compile.myr:genchar"]}
{"id": "C79", "title": "Buffered reading hands out the file's bytes", "statement": "Reading bytes, characters, blocks and integers from a buffered file answers exactly as on the plain list of its bytes, however much the device delivers at a time; when the device fails no byte is lost or repeated, the failure is reported as a failure, and end of file only at the end.", "quantifier": "all contents, start offsets, device schedules with short transfers and faults, and sequences of calls", "why_tests_cant": "The split of the content into transfers and the place of a fault relative to the buffer are unbounded.", "anchors": ["lib/bio/bio.myr:read", "lib/bio/bio.myr:getb", "lib/bio/bio.myr:getc", "lib/bio/bio.myr:ensureread", "lib/bio/bio.myr:fill", "lib/bio/geti.myr:getle"]}
{"id": "C80", "title": "Lines and delimited parts", "statement": "Reading a line returns the bytes before the first line end and leaves what follows it; reading up to a delimiter returns the bytes before its first occurrence, across any number of buffer refills; a failed call loses nothing.", "quantifier": "all contents, delimiters, device schedules and sequences of calls", "why_tests_cant": "A delimiter or line end may straddle any refill of the buffer.", "anchors": ["lib/bio/bio.myr:readln", "lib/bio/bio.myr:readto", "lib/bio/bio.myr:readterm", "lib/bio/bio.myr:skipto", "lib/bio/bio.myr:readdelim"]}
{"id": "C81", "title": "Buffered writing puts every byte in the file", "statement": "When all writing calls and the close report success, the file holds exactly the bytes written, in order, from where it stood, everything else unchanged; a call that failed may be tried again.", "quantifier": "all contents, offsets, device schedules with short transfers and faults, and sequences of writes, characters, integers and flushes", "why_tests_cant": "Depends on where buffers fill up and where the device fails.", "anchors": ["lib/bio/bio.myr:write", "lib/bio/bio.myr:putb", "lib/bio/bio.myr:putc", "lib/bio/puti.myr:putle", "lib/bio/bio.myr:flush", "lib/bio/bio.myr:close", "lib/bio/bio.myr:ensurewrite"]}
{"id": "C82", "title": "Reading and writing one buffered file", "statement": "On a file open for both, reads see what was written before and writes land at the position reached, with seeks anywhere.", "quantifier": "all contents and sequences of seeks, reads and writes", "why_tests_cant": "Interleavings of reads, writes and seeks are unbounded.", "anchors": ["lib/bio/bio.myr:seek", "lib/bio/bio.myr:flush", "lib/bio/bio.myr:read", "lib/bio/bio.myr:write"]}
{"id": "C83", "title": "Decompression yields the compressed bytes", "statement": "Decompressing a DEFLATE stream (RFC 1951) writes exactly the bytes it stands for at the output file's position, returns success, and uses up no byte of the input behind the last one of the stream.", "quantifier": "all inputs and positions in them that begin with a stream, of any number of blocks of the three kinds, any codes, any references; all ways the devices split reads and writes", "why_tests_cant": "Streams differ in codes, block kinds and how they lie across bytes and read chunks; tests decompress a few files.", "anchors": ["lib/flate/flate.myr:decode", "lib/flate/flate.myr:nocomp", "lib/flate/flate.myr:decomp", "lib/flate/flate.myr:dynamic", "lib/flate/flate.myr:readcode", "lib/flate/flate.myr:mkhufc", "lib/flate/flate.myr:bits", "lib/flate/flate.myr:outb"]}
{"id": "C84", "title": "Input that is no stream is refused", "statement": "Decompression returns on every input; it returns an error if and only if the input does not begin with a DEFLATE stream.", "quantifier": "all byte sequences as input", "why_tests_cant": "Malformed inputs are without number; the failures lie in the tables indexed by decoded values.", "anchors": ["lib/flate/flate.myr:decode", "lib/flate/flate.myr:decomp", "lib/flate/flate.myr:dynamic", "lib/flate/flate.myr:readcode"]}
{"id": "C85", "title": "JSON texts are parsed", "statement": "A JSON text (RFC 8259) nested no deeper than 1024 is parsed to the value it stands for.", "quantifier": "all JSON texts: any layout, escapes, nesting, and any reading of numbers", "why_tests_cant": "There is no end of texts; depth accounting and escapes go wrong for some of them only.", "anchors": ["lib/json/parse.myr:parse", "lib/json/parse.myr:parseelt", "lib/json/parse.myr:parsearr", "lib/json/parse.myr:parseobj", "lib/json/parse.myr:jsonstr", "lib/json/parse.myr:unichar", "lib/json/parse.myr:parsenum"]}
{"id": "C86", "title": "What is parsed is JSON", "statement": "If parse returns a value, the input is a JSON text.", "quantifier": "all byte strings", "why_tests_cant": "Malformed inputs are without number.", "anchors": ["lib/json/parse.myr:parse", "lib/json/parse.myr:parseobj", "lib/json/parse.myr:takec"]}
{"id": "C87", "title": "Printed JSON is parsed back", "statement": "Printing a value and parsing the text gives the value back.", "quantifier": "all values with UTF-8 strings whose numbers print to texts that read back", "why_tests_cant": "Values are trees of any shape holding any strings.", "anchors": ["lib/json/fmt.myr:eltfmt", "lib/json/fmt.myr:jstrfmt", "lib/json/fmt.myr:arrfmt", "lib/json/fmt.myr:objfmt", "lib/json/parse.myr:parse"]}
{"id": "C88", "title": "The JSON parser always answers", "statement": "parse returns a value or an error on every input; it never aborts, runs past the input or fails to end.", "quantifier": "all byte strings", "why_tests_cant": "Malformed and truncated inputs are without number.", "anchors": ["lib/json/parse.myr:parse", "lib/json/parse.myr:takec", "lib/json/parse.myr:parseobj", "lib/json/parse.myr:parsearr"]}
{"id": "C89", "title": "Digests are those of the standards", "statement": "MD5, SHA-1, SHA-224, SHA-256, SHA-384 and SHA-512 of a message, fed in any pieces to a state with any earlier contents, write the digest defined by RFC 1321 and FIPS 180-4 at the start of the buffer.", "quantifier": "all messages of fewer than 2^61 bytes, all ways of cutting them into pieces, all earlier states, all buffers", "why_tests_cant": "Block boundaries, padding and carries depend on the length and the cuts; test vectors sample a few.", "anchors": ["lib/crypto/md5.myr:hash", "lib/crypto/sha1.myr:hash", "lib/crypto/sha256.myr:hash", "lib/crypto/sha512.myr:hash"]}
{"id": "C90", "title": "Keccak digests are those of the sponge", "statement": "keccak224, keccak256, keccak384 and keccak512 of a message fed in any pieces write the digest of the Keccak sponge with the original padding.", "quantifier": "all messages of fewer than 2^61 bytes, all ways of cutting them, all earlier states, all buffers", "why_tests_cant": "The padding has two forms and the state 1600 bits; vectors sample a few lengths.", "anchors": ["lib/crypto/sha3.myr:keccakf", "lib/crypto/sha3.myr:keccak", "lib/crypto/sha3.myr:fin"]}
{"id": "C91", "title": "HMAC is that of RFC 2104", "statement": "hmacinit, hmacadd any number of times and hmacfin into a buffer of the size of the digest give the HMAC of RFC 2104 over any of the six hash functions.", "quantifier": "all keys, all messages and cuts of them, all earlier states", "why_tests_cant": "Keys shorter and longer than a block are treated apart, and the message may be cut anywhere.", "anchors": ["lib/crypto/hmac.myr:hmacinit", "lib/crypto/hmac.myr:hmacadd", "lib/crypto/hmac.myr:hmacfin"]}
{"id": "C92", "title": "HMAC at the start of a longer buffer", "statement": "hmacfin into a longer buffer puts the same HMAC at its start and leaves the rest, as hfin does with a digest.", "quantifier": "all buffers longer than the digest", "why_tests_cant": "The outcome depends on the whole buffer.", "anchors": ["lib/crypto/hmac.myr:hmacfin"]}
{"id": "C93", "title": "Constant-time comparisons are right", "statement": "ct.eq, ne, gt, ge, lt, le, min, max, mux and not give the answer of the plain comparison or choice.", "quantifier": "all pairs of values of every unsigned width", "why_tests_cant": "There are 2^128 pairs of 64-bit values.", "anchors": ["lib/crypto/ct.myr:eq", "lib/crypto/ct.myr:lt", "lib/crypto/ct.myr:min", "lib/crypto/ct.myr:mux"]}
{"id": "C94", "title": "Constant-time buffer comparison", "statement": "ct.bufeq answers true exactly for equal buffers, and always answers.", "quantifier": "all pairs of buffers of any lengths", "why_tests_cant": "The answer depends on all bytes and on both lengths.", "anchors": ["lib/crypto/ct.myr:bufeq"]}
{"id": "C95", "title": "ChaCha20 is Bernstein's cipher", "statement": "After the set-up with a key of 16 or 32 bytes and a nonce of 8, encrypting in any number of calls xors the message with the key stream of ChaCha20 with a 64-bit counter; other keys, short nonces and buffers of different lengths stop the program.", "quantifier": "all keys, nonces, messages and cuts of them, all counters, all earlier contents of the context and the output", "why_tests_cant": "Vectors sample a few messages, mostly of whole blocks.", "anchors": ["lib/crypto/chacha20.myr:chacha20keysetup", "lib/crypto/chacha20.myr:chacha20ivsetup", "lib/crypto/chacha20.myr:chacha20encrypt"]}
{"id": "C96", "title": "ChaCha20 decryption", "statement": "Encrypting a ciphertext again from the same place in the key stream gives the message back.", "quantifier": "all keys, nonces, counters and messages", "why_tests_cant": "Must hold for messages of every length.", "anchors": ["lib/crypto/chacha20.myr:chacha20encrypt"]}
{"id": "C97", "title": "Path normalisation is canonical", "statement": "pathnorm gives the shortest text that leads where its argument leads: no empty components or single dots, two dots only at the front of relative paths. Normalising again changes nothing, and two paths have the same result exactly if they lead to the same place (following names as a tree, without links).", "quantifier": "all byte strings", "why_tests_cant": "Dots, empty components and names combine without bound.", "anchors": ["lib/std/pathjoin.myr:pathnorm"]}
{"id": "C98", "title": "Joining paths", "statement": "pathjoin and pathcat lead where their parts lead one after the other, starting at the root exactly if the first part that is not empty does.", "quantifier": "all lists of byte strings, empty ones among them", "why_tests_cant": "Any number of parts, with two dots reaching back over several of them.", "anchors": ["lib/std/pathjoin.myr:pathjoin", "lib/std/pathjoin.myr:pathcat"]}
{"id": "C99", "title": "Directory and base name", "statement": "dirname and basename cut a path in two: the base name is the text behind the last slash, slashes at the end not counted, and has no slash; the directory is never empty; joining the two leads where the path leads.", "quantifier": "all byte strings", "why_tests_cant": "Slashes may be doubled, leading and trailing in any number.", "anchors": ["lib/std/dirname.myr:dirname", "lib/std/dirname.myr:basename"]}
{"id": "C100", "title": "Shell quoting", "statement": "A string formatted with escfmt.sh is read by a POSIX shell as one word that is the string, also when put together with other pieces of a word.", "quantifier": "all byte strings", "why_tests_cant": "One string that breaks out of the quotes is an injection.", "anchors": ["lib/escfmt/escsh.myr:shfmt"]}
{"id": "C101", "title": "URL escapes", "statement": "A string formatted with escfmt.url decodes to the string and has only characters that may stand in a URL and are not reserved.", "quantifier": "all byte strings", "why_tests_cant": "All bytes in all contexts.", "anchors": ["lib/escfmt/escurl.myr:urlfmt"]}
{"id": "C102", "title": "HTML escapes", "statement": "A string formatted with escfmt.html stands for the string wherever it is put in a document, in text or in a quoted attribute.", "quantifier": "all strings of characters", "why_tests_cant": "One string that ends the text is an injection.", "anchors": ["lib/escfmt/eschtml.myr:htmlfmt"]}
{"id": "C103", "title": "Random bytes", "statement": "rngrandbytes fills the whole buffer with the bytes of successive numbers of the generator.", "quantifier": "all generators, all buffer lengths", "why_tests_cant": "A test cannot tell random bytes from others, and the outcome depends on the length.", "anchors": ["lib/std/rand.myr:rngrandbytes", "lib/std/rand.myr:rngrandnum"]}
{"id": "C104", "title": "Random numbers in a range", "statement": "rngrand gives a number from lo up to but not including hi, each of them from the same number of values of the generator.", "quantifier": "all generators, all ranges, all integer types", "why_tests_cant": "The bias is one value in 2^63.", "anchors": ["lib/std/rand.myr:rngrand"]}
{"id": "C105", "title": "Seeds", "statement": "Generators made with mksrng from different seeds give different numbers, and none gives only zeros.", "quantifier": "all 32-bit seeds", "why_tests_cant": "There are 2^64 pairs of seeds.", "anchors": ["lib/std/rand.myr:mksrng"]}
{"id": "C106", "title": "IPv4 addresses", "statement": "ip4parse takes exactly the texts of four numbers from 0 to 255 with dots between them, and gives the address of those four bytes.", "quantifier": "all texts", "why_tests_cant": "There are 2^32 addresses, and no bound on the texts that are not one.", "anchors": ["lib/std/ipparse.myr:ip4parse"]}
{"id": "C107", "title": "IPv6 addresses", "statement": "ip6parse takes exactly the texts of eight groups of 16 bits with colons between them, a run of zero groups of which may be written ::, and gives the address of those groups, upper byte first.", "quantifier": "all texts", "why_tests_cant": "There are 2^128 addresses, and no bound on the texts that are not one.", "anchors": ["lib/std/ipparse.myr:ip6parse"]}
