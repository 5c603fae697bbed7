# Formal model of unsafe-risk/utilx in Rocq (Coq 8.16.1)

Source under study: `/repo` (Go, pinned). The model lives in `rocq/theories/`, logical name `Verif`.

## Method

* One group of files per Go package: `XModel.v` (executable Gallina, each definition cites file and lines),
  `XSpec.v` (the ideal object, short, no reference to the model), `XProofs.v` (lemmas), `XProps.v`
  (only the property theorems, closed with `exact`, each with `Print Assumptions` and non-vacuity examples).
  Small packages put the spec at the top of the Props file or in the Model file under a marked heading.
* Go results: `Base.res A` = `Ret a | Panic | Spin`. `Panic` is a Go run-time panic, `Spin` is an exhausted
  loop budget (fuel); theorems either exclude `Spin` or prove it for *every* fuel (a genuine hang).
* Machine integers: unbounded `Z`/`N`/`nat` where the property is not about overflow, explicit wrap
  (`Base.i64`, `Base.u64`) where the Go code computes with attacker/user chosen ints.
* Pointers: a heap is a finite list/function of cells addressed by `nat`; nil is `None`.
* `sync.Pool` (runtime): the pool is a bag of put objects; each `Get` is driven by an oracle that either
  picks any object of the bag or makes a new one. All theorems quantify over the oracle.
* Goroutines: explicit small-step state machines, one step per atomic action / critical section entry, any
  number of threads, theorems by induction over arbitrary schedules.
* Randomness, clocks, crypto primitives, `sort` (unstable), map iteration order: universally quantified
  oracles (function arguments / Section variables turned into theorem hypotheses), with the assumed
  contract recorded below.
* When the natural property is false of the code, the natural statement is kept in `properties.jsonl`, a
  `..._refuted` theorem gives the witness (or proves that it fails everywhere), and the strongest true
  restriction is proved next to it as `..._partial`, or as an "exact behaviour" property of its own.

## Trusted base

* Coq 8.16.1's kernel, including its virtual machine (`vm_compute` closes some refutations and examples).
* Axioms: none. `Print Assumptions` follows every theorem in the `*Props.v` files and prints
  "Closed under the global context" for each of them. (Loading std++ loads `Coq.ssr.ssrunder`, whose module
  type declares seven parameters `Under_rel.Over_rel`, `Under_rel_from_rel`, `over_rel`, `over_rel_done`,
  `Under_rel`, `Under_relE`, `under_rel_done`. No theorem here depends on them.)
* The model itself: that the Gallina definitions say what the Go code does. They were written by reading the
  code; nothing is extracted from it or run against it. Each definition cites the lines it stands for.
* The transcription of the parts of Go's runtime, of its standard library and of golang.org/x that the code
  calls. They were written from knowledge of Go 1.18/1.19, since neither is in the sandbox. See the next table.
* Libraries used: Coq's standard library and std++.

## What is modelled

| Go file | Theories | Properties |
|---|---|---|
| dsx/mapx/sklmapx/sklmapx.go, splitmix64.go | SplitMix*, Skl*, SklLevel*, SklAverage, SklExact*, SklAny*, SklReach*, KeepProps, ZeroMap* | C01-C08, C120-C124, C144, C169, C183 |
| dsx/mapx/ordmapx/ordmapx.go | OrdMap*, OrdRange*, OrdExact*, OrdAny*, ZeroMap* | C09-C11, C111, C126, C145, C169 |
| dsx/mapx/syncmapx/syncmapx.go | SyncMap*, Lin, ZeroSync* | C47, C87, C117, C157, C169 |
| dsx/mapx/syncmapx/syncmapx.go on Go's sync/rwmutex.go | RW*, SyncMapRW*, SyncMapEnd*, Fair, RWMu* | C139, C140, C176, C189 |
| Go's sync/mutex.go, under closex, gopoolx, lazyx and RWMutex | Mutex*, OwnMu*, PoolOwnMu* | C186, C187, C190, C194, C195 |
| dsx/linkedx/queuex, stackx, dequex, listx | LinkedHeap, LinkedChain, LinkedQueue*, LinkedStack*, Deque*, DequeUse*, LinkedList*, LinkedIter*, Rec*, ZeroSpec, ZeroProps | C12-C19, C105, C118, C168, C169, C170 |
| dsx/slicex/queuex/queuex.go (Ring) | Ring*, KeepProps, Rec*, ZeroSpec, ZeroProps | C20, C21, C168, C169, C183 |
| dsx/slicex/stackx, listx | SliceStack*, KeepProps, ListIterProps, Rec*, ZeroSpec, ZeroProps | C22, C23, C119, C168, C169, C183 |
| dsx/slicex/slicex.go | GoSlice, Slice*, SliceRe*, SlicePanic*, SliceSpread* | C24-C38, C115, C159, C168 |
| dsx/setx/bitsetx/bitsetx.go | BitSet*, Rec* | C39, C40, C168 |
| functionalx/optionx, resultx, configx/optionalx | Func* | C41, C43 |
| functionalx/lazyx/lazy.go | Lazy*, LazyRe*, LazyNet*, LazyFair*, Fair | C42, C108, C136, C178, C194, C197 |
| syncx/lockx/lockx.go | Lock*, LockFair*, LockNest*, Fair | C44, C45, C88, C137, C138, C196 |
| syncx/syncpoolx/syncpoolx.go | SyncPool*, PDeq*, GPool*, ZeroSyncPool* | C46, C169, C184, C185, C188 |
| timex/timex.go, truncatex, diffx | Time*, TimeDiv*, TimeEvery*, Timex* | C48-C51, C103, C141 |
| timex/sleepx/sleepx.go | Sleep*, RaceSpec, Fair, ZeroSync* | C52-C54, C127, C131, C169 |
| timex/intersectionx/intersectionx.go | Inter*, Pdq* | C55-C57, C146, C160 |
| poolx/gopoolx/timedpool.go | Pool*, PoolRe*, PoolExit*, PoolMu*, RaceSpec, Fair, ZeroPool* | C58-C62, C89, C90, C112, C128, C130, C158, C167, C169, C179, C180, C181, C195 |
| iox/usingx, iox/managerx/closex, osx/closex | Close*, CloseConc*, CloseTree*, CloseNet*, CloseFair*, CloseEnd*, Sig*, Fair | C63-C65, C86, C91, C109, C110, C132, C133, C175, C182, C194, C198, C199 |
| iox/decouplex/decouple.go | Dec*, DecRe*, DecExact*, DecMR*, DecSolo*, DecRoom*, DecByte*, RecDec*, ZeroDec* | C66-C68, C92, C93, C113, C114, C129, C142, C143, C168, C169, C171, C173 |
| typex/convx (convx.go, converters.go, init.go) | Conv*, ConvConc*, ConvEnd*, ConvRW*, Strconv*, StrUnder* | C69-C75, C96-C99, C106, C107, C125, C150-C153, C155, C156, C161, C174, C191-C193 |
| cryptox/passhashx (passhash.go, alg.go, internal/passhash.vstruct.go) | Pass*, PassStr*, Base64Props | C76-C79, C134 |
| cryptox/aesx (cbcx.go, ctrx.go, gcmx.go) | Aes*, Ghash*, ShaSpec* | C80, C81, C100, C101, C116, C148, C149, C162, C163, C164 |
| cryptox/bcryptx/bcryptx.go | Bcrypt*, BcryptRec*, Base64Props | C82, C102, C135 |
| algox/searchx, algox/sortx | Sort*, Pdq* | C83-C85, C94, C95, C146, C147, C165, C166 |
| cmd/autotidy, cmd/autoupdate | Cmd*, CmdWd* | C104, C172 |
| several models of slicex, listx, decouplex, syncmapx | AgreeProps | C177 |
| test/main.go | ConvMainModel, ConvMainProps | C154 (and C153, over typex/convx) |

Not modelled: `main.go` (empty main), `dsx/dsx.go` (interface declarations),
the packages that consist of a
package clause only (hmacx, shax, cryptox.go, typex.go, algox.go, the tree packages, encodex, logx, debugx, ...),
and the tests.

## Simplifications and assumed contracts

General

* Memory is unbounded: `append` and `new` never fail; a length fits an `int`. The exceptions are the calls of
  `make` with a caller's size in slicex.go (Extend, Repeat), which panic above a parameter `maxlen`; the internal
  `make` of Split and Batch is not checked against it.
* Concurrency is sequentially consistent: one step per atomic access or critical section, any number of
  goroutines, any schedule. A data race is modelled only where stated below. Fairness is assumed only in the
  theorems about infinite executions (Fair.v and the *Fair* files), as a hypothesis; elsewhere liveness is stated as
  "from every reachable state there is a continuation" or "the next step of this goroutine does it".
* Callbacks are state transformers that may panic or not return. Where a callback that calls back into the same
  object is excluded, it is said below.
* A panic ends the history, except in Rec* and SlicePanic*, where the caller recovers it and goes on.

Package by package

* sklmapx: `len` does not wrap; heights are `nat`; `%v` is a pair of functions. Key comparison is two boolean
  functions; theorems assume a strict weak order, C07 says what happens with NaN.
* ordmapx: the built-in map is an association list, its iteration order is not used by the code.
* linkedx: one node heap per container; `sync.Pool` as described under Method.
* slicex: append either writes in place or moves to a new array of any larger capacity, chosen by an oracle.
  rand.Shuffle is Fisher-Yates over an arbitrary oracle of indices in range.
* lazyx: sync.Once is transcribed; constructors that call Get themselves are in LazyReModel.
* lockx: the object's first word is its own address, nil or something else; callbacks do not write it, except in C138; a nil
  target is not modelled.
* syncpoolx: sync.Pool as documented, calls atomic. PDeqModel writes out the queue under it (sync/poolqueue.go of Go 1.19, not in /repo): a step is one atomic access, one write of a word of a slot, or one read of the two words of a slot; the owner is one thread, as only the goroutine pinned to a P pushes and pops at the head. GPoolModel puts the Pool together from such queues: any place and any queue may be tried at any time (the code tries them in an order), the collector runs when nobody is inside a queue, and the number of Ps does not change (a change throws objects away).
* syncmapx: a map write is two steps and a concurrent access crashes the program. Keys are from a countable type
  with decidable equality (no NaN), except in SyncMapEqModel, where == is any symmetric and transitive test. In SyncMapModel the RWMutex admits more schedules than
  Go's, which prefers writers; SyncMapRWModel has the code of sync.RWMutex instead (for at most 2^30 goroutines), in
  which sync.Mutex is an owner and a semaphore a number, handed out in any order.
* time: Time.Unix, Sub, Add, Truncate (with the 128-bit long division of time.div), Date, Year/Month are
  transcribed in int64/uint64 arithmetic with wrap-around; times are UTC. Of time.div the parity of the
  quotient, which only Round uses, is left out.
* sleepx: context.WithCancel is a flag; the plain fields ctx and cancel are read and written in one step each
  although the code races on them; time.After fires at or after its time.
* intersectionx: sort.Sort gives some sorted permutation (InterModel); PdqModel has its code, which does.
* gopoolx: everything inside mu is one step (C167 shows with a step per access that this loses and adds nothing); the handler returns, or ends its goroutine (C158), and does not panic (that ends the program); the collector's ticker fires
  at any time.
* usingx/closex: closers may fail or panic and may depend on everything before; goroutines and closers
  that call the same CloseManager are in CloseConcModel; the signal channel has capacity 1 and drops signals when full.
  SigModel has any number of calls of HandleKillSig, with the goroutine of os/signal that hands signals out; signal.Stop, other users of C and other signals are not in it.
* decouplex: the copy into and out of a slot is one step (C171 shows with a step per byte and header word that this loses and adds nothing); one
  reader, except in DecMRModel (C142); the reader's callback does not keep the buffer.
* convx: calls are atomic in ConvModel; goroutines, the lock and converters that call convx are in ConvConcModel,
  whose RWMutex lets waiting readers and writers in in any order once a writer leaves, and nobody while a writer waits;
  ConvRWModel has the code of RWMutex instead, which may let a reader in while a writer waits (C191).
  ParseInt/ParseUint/ParseBool and UTF-8 decoding/encoding are transcribed, FormatInt/FormatUint are decimal
  digits, floats are Coq's SpecFloat with FormatFloat, ParseFloat and the out-of-range float to integer conversion
  as parameters. StrconvModel writes out FormatFloat(_, 'f', -1, 64) and ParseFloat(_, 64) (Go's strconv: special,
  readFloat, underscoreOK, fmtF, roundShortest): the scanner byte by byte with its limit on exponents; the conversion
  of digits to binary is exact rounding of the fraction (instead of the 19 digit fast paths, Eisel-Lemire and the
  decimal with 800 digits), the shortest digits are searched from the shortest up (instead of Ryu); errors are dropped,
  as converters.go does.
* passhashx: argon2 and crypto/rand are parameters; base64.RawURLEncoding is transcribed; the capacity of a byte
  slice is its length.
* aesx: in AesModel AES, SHA-256 and the GCM tag are parameters (AES decryption inverts encryption, SHA-256 gives 32
  bytes, the tag 16); AesCipherModel writes them out and C148 proves these assumptions. C162-C164
  prove them against relations that state the standards (FIPS 197, FIPS 180-4, SP 800-38A and -38D), whose test
  vectors are Examples; that Go's tables and assembly compute the standards is trusted. The modes are transcribed from crypto/cipher. Slices may have spare capacity.
* bcryptx: the digest is a parameter of cost, salt and the 72 bytes of key schedule. In BcryptModel the text of a
  hash is one too; BcryptRecModel transcribes it (newFromHash, Hash, the base64 variant), with the rounds a parameter.
* searchx/sortx: BinarySearchFunc and IsSortedFunc of x/exp/slices are transcribed; SortFunc gives a sorted
  permutation and SortStableFunc the stable one, when the comparison is a strict weak order (SortModel). PdqModel
  transcribes both (pdqsort; blocks and symMerge), from the versions of December 2022 as remembered, since their
  source is not in /repo; C146 proves that they keep that contract. Its random source is an arbitrary function, and
  indices are natural numbers (they stay within the slice, so that no int wraps). SortEffModel is the same code with
  the slice as state and a comparison that may panic, hang or answer differently each time; the calls are counted.
* cmd: the file tree does not change during the walk; Getwd and Chdir are their system calls' answers; symbolic links
  are files (os.Chdir would follow one that a relative path meets after the return to the start has failed); what the command does is not modelled.

Not expressible in the model: real time durations, weak memory behaviours, cryptographic strength.

## Mutation log

`seeded/LOG.jsonl` has one line per wrong program that was tried on a scratch copy: the definition, the edit, the
claim that breaks, the theorems that no longer prove, and the theorems that were tightened because of it.

## Plan per property

| Property | Modelled | Proof |
|---|---|---|
| C01-C03 | skip list as a pointer heap with 16 forward links per node, `search/insert/delete` loop by loop, splitmix64 heights | invariant "level i is the sorted sublist of nodes with height > i", refinement to a sorted association list by induction over histories |
| C04-C06 | Iterator as (node pointer, ctx), Next/Seek/Rewind on the heap | from the level-0 invariant; C05/C06 refuted by witness, C06 restriction proved for live nodes |
| C07 | same model instantiated with keys `option Z` where `None` is NaN | refuted by vm_compute |
| C08 | rand_height, next, splitmix64 in N mod 2^64 | xorshift and odd multiplication are injective |
| C09-C11 | OrdMap over the skip list model and an association list for the Go map | refinement, C11 refuted |
| C12-C15 | linked queue/stack over heap + pool | C12, C14 refuted; C13, C15 induction |
| C16-C17 | chunked deque over heap + pool | representation invariant over chunk list; C16 refuted |
| C18-C19 | linked list over heap + pool | C18 refuted, C19 refinement |
| C20-C21 | Ring | invariant, exact panic point |
| C22-C23 | slice stack/list | refinement |
| C24-C38 | Go slices as (array id, offset, len, cap) over a heap of arrays, `append` with arbitrary growth | memory-level model for Splice/Rotate/Filter/Copy; list level for the rest |
| C39-C40 | bit set over N with width | bitwise lemmas |
| C41, C43 | direct | computation / fold |
| C42, C44, C45, C47, C52, C53, C58-C61, C68 | interleaving state machines | inductive invariants |
| C46 | pool bag | invariant |
| C48-C51, C54 | `time` arithmetic (stdlib algorithms transcribed) in Z with wrap | division lemmas; calendar by cases of 400-year cycles |
| C55-C57 | intersection over any sorted permutation | counting argument |
| C62-C65, C86 | direct / small state machine | case analysis, induction |
| C66-C67 | Decoupler sequentially | queue invariant; C66 refuted |
| C69-C75 | registry as finite map; decimal, UTF-8 codecs | refinement, codec proofs |
| C76-C79 | bytes as Z lists, uint64 offsets | codec proofs |
| C80-C82 | block cipher, AEAD, KDF, bcrypt core as quantified functions with contracts | induction over blocks |
| C83-C85 | binary search loop; sort by contract | invariant |
| C87 | syncmapx iteration, one step per element | invariant over the steps of a Range |
| C88 | lockx with a callback that panics | reachability |
| C89, C90 | TimedPool.Stop against Run and itself | interleaving state machine, refutations by explicit schedules |
| C91-C93 | ErrorList; Decoupler of size 0; order of concurrent writers | induction; schedules |
| C94, C95 | SearchCustom, IsSorted | loop invariant |
| C96-C99 | float formats from Coq's SpecFloat | exactness lemmas of binary rounding |
| C100-C102 | GCM, CTR and CBC modes, bcrypt key schedule | induction over blocks |
| C103 | time.Unix with carry | Euclidean division |
| C104 | WalkDir over a finite tree; CmdWdModel: the paths resolved in the tree from the current directory at each call | induction over trees; the recursion ends because paths get longer |
| C105 | node heap with pool vs. sequence, counter and last position | simulation in both directions |
| C106, C107 | goroutines, RWMutex, converters as programs that call convx | lock invariant; frozen waits-for pair; progress |
| C108 | sync.Once with a constructor that calls Get | per-goroutine invariant |
| C109, C110 | goroutines, mutex, closers as programs that call the manager | mutex invariant with the trace; progress |
| C111 | OrdMap.Range with callbacks as programs over the map's methods | simulation by the reference map; induction on visits |
| C112 | the pool with handlers as programs that call Run and Stop | projection; progress by induction on the program |
| C113, C114 | one goroutine, drop and views as programs over Write and Next | simulation of the ideal queue with slot numbers; induction on fuel |
| C115 | one goroutine, callbacks as programs over the methods, slice memory | invariant tying the header the loop copied to the current one; induction on the program and on the elements |
| C116 | parameters as for C80 | indexing into the key stream; big-endian numbers are injective |
| C117 | SyncMapModel restricted: a call with a refused key stays between Lock and Unlock | inherited invariant; the panicked goroutine keeps its lock |
| C118 | LinkedListModel with callbacks that are programs; p.next read after the callback | the position follows its cell: how each call changes the list of cells |
| C119 | SliceStackModel with callbacks that are programs; both lists | append keeps what older headers see; both refine the sequence |
| C120 | outputs of splitmix64 by position | next is injective on uint64 (C08), so a bijection of the seeds; counting |
| C121, C122 | levels read off the pointer heap; a search that counts | the invariant of C01-C03 per level; sorted sublists of one list |
| C123 | all outcomes of the tosses, enumerated | exact totals by induction on the number of keys |
| C124 | any number of iterators as positions in the node heap | simulation; deleted nodes keep their pointers, so a stale iterator is a path through them |
| C125 | SpecFloat rounding, values as whole numbers of units of 2^-1074 | the bits shifted out give the nearest multiple; no value of the format lies between |
| C126 | programs with nested Ranges; the specification keeps the place of every Range under way | induction on programs, the iterators of enclosing Ranges carried along as in C124 |
| C127 | a race is a reachable state in which two goroutines are about to make conflicting accesses (RaceSpec); accesses listed per program counter | case analysis; schedules for the races |
| C128 | as C127; accesses under the mutex do not race with each other | the owner of each worker (C58) determines who accesses it; invariants for goroutines that have not started and for Stop |
| C129 | a ring of slots with two unbounded counters | simulation; the loop of Write by induction on the full slots it passes; conservation by permutations |
| C130 | infinite executions with stuttering; fairness per goroutine, constructive (Fair); nobody has to make a call | leads-to rules, the invariants of C58-C62; counterexamples are runs that settle |
| C131 | as C130, on the Sleeper | leads-to rules, the invariants of C53; counterexamples settle, or go on with one goroutine calling Wakeup for ever |
| C132 | as C130, on CloseConcModel; strong fairness stands for a mutex that starves nobody | a measure of how long the holder can keep the mutex, leads-to rules, induction on the code of the goroutine |
| C133 | as C130, on the goroutine of HandleKillSig | leads-to rules along its program |
| C134 | strings as byte lists, fmt.Sprint of a byte slice transcribed | splitting at the first comma and bracket; decimal digits are injective (C71) |
| C135 | newFromHash, Hash, Compare and Generate of x/crypto/bcrypt transcribed on byte lists | newFromHash inverted exactly; what Hash prints by computation on a 60-byte buffer; base64 as in C78 |
| C136 | as C130, on LazyModel; weak fairness only | the rank of a call's place in its program falls with each step; those that wait for the mutex once done is set become fewer |
| C137 | as C130, on LockModel; a failed try is a step that changes nothing | leads-to rules; without new calls the sum of the ranks falls; the counterexample is a cycle of five steps |
| C138 | LockModel with steps that write the word | reachability, invariant of the stuck states |
| C139 | RWModel (steps of RWMutex), SyncMapRWModel | counting invariant over the goroutines; coupling with SyncMapModel |
| C140 | the same, infinite executions | strong fairness; readerWait + readerSem decreases while a writer waits; fairness carried from the map to the lock by a rank |
| C141 | time.div word by word | the loop keeps the remainder and halves the shifted divisor; Euclidean division |
| C142 | DecMRModel: DecModel's writers, readers with a step per access of _read | simulation by the one reader; refutations by schedules |
| C143 | DecModel, runs of one writer | a busy slot has a writer in it, the length counts the full slots; induction on the distance to an empty slot; a round of 18 steps that repeats |
| C144 | SklModel, arbitrary `ltb`/`eqb` | the invariant of C01 without the order; a node that stops the walk at one level stops it at the levels below, so all predecessors are those of one place; that place is unique |
| C145 | OrdMapModel over C144 | Go map lookup under a symmetric and transitive ==; the index covers the Go map; counting |
| C146 | PdqModel, arbitrary `less` and random source | weakest preconditions; segments; everything left of a is at most everything in [a, b); heaps with a hole; rotation of two runs; symMerge splits into two merges around one bound |
| C147 | PdqModel | refuted at 13 elements; up to 12 it is the insertion sort |
| C148 | AesCipherModel | S-box by computation over all bytes; MixColumns linear over GF(2), its matrix product entry by entry; induction on the round keys |
| C149 | AesCipherModel | the GHASH product is a field: additive maps that commute with x are multiplications, x has order 2^128 - 1 (Fermat, trial division), so every element but 0 is a power of x; a polynomial has no more zeros than its degree |
| C150 | StrconvModel | the scanner on a numeral, and that it accepts nothing else; a fraction rounded with a sticky bit is the nearest float; exponents beyond 10000 are as good as any; StrconvExpProps: the exponent of a numeral of any length is cut to its first five digits, and the result is the nearest float64 of what is left |
| C151 | StrconvModel | the interval of numbers that round to a float; the candidates at each number of digits; the reader on the text |
| C152 | StrconvModel | refuted at 0.1 |
| C153 | ConvModel | the entry of a pair after a history, by induction; init.go's table for the rest |
| C154 | ConvMainModel | evaluation, and the hexadecimal digits by induction on the buffer |
| C155 | ConvModel | the nearest float of C125; numbers with few digits are floats; nothing with few digits lies between an integer and its float |
| C156 | StrconvModel | the neighbours of a float32, whose midpoints are float64; no float64 lies strictly between a number and its float64 |
| C157 | SyncMapEqModel, a list of entries searched with == | invariant over the steps, with no two equal keys; counting over the linearization |
| C158 | PoolExitModel, on PoolModel | projection to runs with handlers that do not return; counting goroutines |
| C159 | SliceModel | refinement of histories, call by call; the cuts by induction on the sizes |
| C160 | InterModel | the first prefix of the sorted ends with enough starts, against the number of intervals over a point; the second scan by mirroring |
| C161 | StrconvModel | the scanner with and without underscores, both ways |
| C162 | AesCipherModel | the words by their bits; schedule and rounds as sequences; primes by trial division; uniqueness by induction |
| C163 | AesCipherModel | products as polynomials, finite checks over bytes, additivity; states and key words as sequences; uniqueness step by step |
| C164 | AesModel, AesCipherModel | products as polynomials with a quotient, unique by degree; blocks and counters by their values; C162 and C163 for key and blocks |
| C165 | SortEffModel, PdqModel | every step keeps a permutation and counts the calls of the comparison, an arbitrary function of call number and arguments; simulation by PdqModel for comparisons that only compare |
| C166 | SortEffModel | potential: length times (halvings left by 15/16 plus unbalanced partitions left); an equal partition is never followed by another; shifts stop at the segment because what is before it is not above it |
| C167 | PoolMuModel, against PoolModel | simulation both ways: each section has one step at which the atomic model moves, what the memory lacks or has in advance is a function of the holder's place; a count that only the holder's steps lower |
| C168 | RecModel, RecDecModel, SlicePanicModel: the outcome of a call and what it leaves | refinement of histories with panics, call by call, from the simulation relations of the packages |
| C169 | ZeroSpec, ZeroDecModel, ZeroMapModel, ZeroSyncModel, ZeroPoolModel: the methods on a variable that no constructor made (nil maps, nil pointers, nil pools and channels) | a relation between the zero state and a one-line ideal object, kept by every call with its panic recovered; invariants over every schedule for Map, TimedPool and Sleeper. The Get of a nil *sync.Pool is taken to panic, as in the Go versions that check for nil before pinning the processor; in older ones it stops the program |
| C170 | DequeModel | an invariant on the outer links of the end nodes, kept by every call with new nodes; one-node invariants for the bounded cases; ideal object that dies when first emptied |
| C171 | DecByteModel, against DecModel: headers, arrays and bytes in memory, append with and without a new array | simulation both ways: each array belongs to one slot, each slot to one goroutine; the copy of DecModel happens when the header is complete |
| C172 | CmdWdModel, os.Chdir(workdir) failing, os.Lstat failing | invariant: the current directory only ever gets deeper |
| C173 | DecModel, with the trace of calls | invariant: number k belongs to one Write, whose progress gives the state of slot k mod size; leads-to rules on the state with its trace |
| C174 | ConvConcModel | each goroutine's own steps are well founded (induction over its code, with the stack of converters), finitely many well founded relations interleaved are well founded, and C107 gives a step while somebody is not done |
| C175 | CloseConcModel | as C174: the steps of a goroutine are well founded by how long it can hold the mutex and by its code; the end by cases on who holds the mutex |
| C176 | SyncMapRWModel | a call's own steps are well founded (part of the method, then place in it), interleaved as in C174; where nothing moves, the execution that stays there is fair, so C140 applies |
| C182 | SigModel | trace invariants; the execution that stays where nothing moves is fair, and every other step makes a measure smaller |
| C183 | SklModel, RingModel, StackModel | an invariant on the pointers of every level: each leads to a node that is in the list |
| C184 | PDeqModel | simulation: unbounded head and tail behind the wrapping ones, who is at which slot, and why a slot has a type |
| C185 | GPoolModel | C184 for each queue, contents as a list up to order; a queue out of its chain stays empty since no push begins once it is shut; the victim cache only shrinks |
| C186 | MutexModel (steps of sync.Mutex, quoted there; a semaphore is a number of tokens; spinning and the time waited are arbitrary) | counting invariant over the goroutines: the woken bit, or starvation mode without the lock, stands for exactly one goroutine that is being woken |
| C187 | MutexModel | a measure that goes down with every step but the call and the spin: lexicographic in those who have still to unlock, the lock and woken bits, the tokens, the tries left, and how stale each goroutine's copy of the word is |
| C188 | PDeqModel | a measure: calls that have still to change headTail, then the steps to the next try, stale copies counting double |
| C189 | RWMuModel (a program with an RWMutex, composed with MutexModel; the owner of RWModel is not read) | simulation: forgetting the steps of the mutex gives an execution of the program; a goroutine's place in the RWMutex determines its phase in the mutex |
| C190 | OwnMuModel (a program with an owner, composed with MutexModel; the owner is not read) | simulation in both directions, for any program whose steps set the owner when there is none or clear it |
| C191 | ConvRWModel (convx composed with RWModel, one user of the lock per goroutine and depth of converters; then with MutexModel as in C189) | simulation: announcing and getting the lock of ConvConcModel are both the moment at which Lock of the RWMutex returns; for the deadlock an invariant of the RWMutex while a writer waits |
| C192 | ConvRWModel | case analysis over a reachable state: who has the lock can go on, and otherwise some user of the RWMutex can (C189) |
| C193 | ConvRWModel | each goroutine goes down in a lexicographic order (its place in its code, by C174; the place of its user in the RWMutex), finitely many of them interleaved are well founded |
| C194 | LazyReModel, CloseConcModel, each composed with MutexModel as in C190 | the simulation of C190 from every reachable state on, and the invariants of C108 and C110 |
| C195 | PoolMuModel composed with MutexModel as in C190 | the simulations of C190 and C194, and the theorems of C167 |
| C196 | LockNestModel (each goroutine has a stack of calls of Lock) | invariant tying the nil words to the stacks; for the deadlock an invariant of the set, for the ordered case induction on the objects that are taken, and a count of the steps left |
| C197 | LazyNetModel (any number of Lazies, each goroutine has a stack of calls of Get) | invariant tying the Once mutexes to the stacks; for the values a big-step evaluation in which Get calls the constructor; for the deadlock an invariant of the set, for the ordered case induction on the Lazy that is waited for, and a count of the steps left |
| C198 | CloseTreeModel (managers inside of managers, one goroutine, big-step with the mutexes that are held) | mutual induction on executions; well-founded induction on the managers below, and on the managers that are not held |
| C199 | CloseNetModel (managers inside of managers, any number of goroutines, each with a stack of calls of Close) | invariant tying the mutexes to the stacks; invariant of the set for the deadlock; for hierarchies induction on the manager that is waited for, and a bound on the steps left |
