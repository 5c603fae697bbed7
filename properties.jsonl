{"id": "C01", "title": "SkipListMap behaves as a finite map", "statement": "After any sequence of Set, Del, Get, Len, Clear calls on a map made by New, Get(k) returns (v,true) where v is the value of the last Set(k,v) not followed by a Del(k) or Clear, and (zero,false) if there is none; Del(k) returns true exactly when k was present; Len is the number of present keys. No call panics or loops forever.", "quantifier": "every history of operations, every key type with a strict total order, every value type, every RNG seed and every seed drawn by Clear", "why_tests_cant": "the node heights are random and the pointer structure depends on the whole history; tests sample a few seeds and histories", "anchors": ["dsx/mapx/sklmapx/sklmapx.go: New, SkipListMap.Set, Del, Get, Len, Clear, skl.search, skl.insert, skl.delete"]}
{"id": "C02", "title": "SkipListMap enumerates in ascending key order without duplicates", "statement": "After any history, Keys() is strictly ascending and contains exactly the present keys; Values() lists the values of those keys in the same order; ToMap() is the same finite map; String() renders the same entries in the same order; Len() equals the length of Keys().", "quantifier": "every history, every key order, every seed", "why_tests_cant": "order must hold for every interleaving of inserts and deletes at every random height", "anchors": ["dsx/mapx/sklmapx/sklmapx.go: Keys, Values, ToMap, String, Len, Iterator.Next"]}
{"id": "C03", "title": "SkipListMap observations do not depend on the random source", "statement": "Two maps created with different seeds and driven through the same history (with arbitrary seeds drawn by Clear) return identical results from every call.", "quantifier": "every pair of seeds and every history", "why_tests_cant": "2^64 seeds", "anchors": ["dsx/mapx/sklmapx/sklmapx.go: rand_height, insert", "dsx/mapx/sklmapx/splitmix64.go: splitmix64, root_next"]}
{"id": "C04", "title": "Iterator enumerates, seeks and rewinds correctly", "statement": "On an unmodified map, a fresh or rewound iterator's Next calls return exactly the entries in ascending key order and then ok=false; Seek(k) returns k's entry iff k is present, and after a successful Seek the Next calls return exactly the entries with greater keys in order; after a failed Seek, Next restarts from the smallest key.", "quantifier": "every reachable map, every key", "why_tests_cant": "all map shapes", "anchors": ["dsx/mapx/sklmapx/sklmapx.go: Iterator.Next, Seek, Rewind"]}
{"id": "C05", "title": "Iterator.Next stays at the end once exhausted", "statement": "After Next has returned ok=false, calling Next again returns ok=false again (as for any Go-style iterator).", "quantifier": "every reachable map", "why_tests_cant": "needs a proof for all maps (here: that it fails on all maps)", "anchors": ["dsx/mapx/sklmapx/sklmapx.go: Iterator.Next"]}
{"id": "C06", "title": "Iterator under concurrent-free mutation yields live entries", "statement": "If the map is modified between Next calls, Next returns the entry of the smallest present key greater than the iterator's current key; in particular an iterator never returns a deleted key.", "quantifier": "every history of mutations between Next calls", "why_tests_cant": "all mutation histories", "anchors": ["dsx/mapx/sklmapx/sklmapx.go: Iterator.Next, skl.delete, skl.insert"]}
{"id": "C07", "title": "SkipListMap works for every ordered key type", "statement": "The finite-map behaviour holds for every type admitted by constraints.Ordered, including floating point keys that may be NaN.", "quantifier": "every key value of the type including NaN", "why_tests_cant": "special values", "anchors": ["dsx/mapx/sklmapx/sklmapx.go: search (x.key < key, x.key != key)"]}
{"id": "C08", "title": "Random heights are always legal and the seed generator never repeats", "statement": "Every height drawn is between 1 and MAX_HEIGHT=16 whatever the seed, and the per-map seeds handed out by root_next are pairwise distinct for the first 2^64 maps of a process (the splitmix64 output function is a bijection on uint64).", "quantifier": "every 64-bit state", "why_tests_cant": "2^64 states", "anchors": ["dsx/mapx/sklmapx/splitmix64.go: next, splitmix64, root_next", "dsx/mapx/sklmapx/sklmapx.go: rand_height"]}
{"id": "C09", "title": "OrdMap behaves as a finite map with ordered enumeration", "statement": "After any history of Set, Del, Get, Clear, OrdMap agrees with a finite map: Get, Len, Keys (strictly ascending), Values (in key order) all describe the same map; the internal hash map and the internal key index never disagree.", "quantifier": "every history, key order, seeds", "why_tests_cant": "two structures have to stay in sync on every history", "anchors": ["dsx/mapx/ordmapx/ordmapx.go: New, Len, Get, Set, Del, Clear, Keys, Values"]}
{"id": "C10", "title": "OrdMap.Range visits ascending and stops on request", "statement": "Range calls f on the entries in ascending key order, once each, stops right after the first call that returns true, and calls f on nothing else; a callback that deletes the key it is visiting does not disturb the enumeration.", "quantifier": "every map, every callback", "why_tests_cant": "all callbacks", "anchors": ["dsx/mapx/ordmapx/ordmapx.go: Range"]}
{"id": "C11", "title": "OrdMap.Range tolerates Clear from the callback", "statement": "A callback that calls Clear during Range ends the enumeration: no further key is visited and nothing panics.", "quantifier": "every non-empty map", "why_tests_cant": "mutation during iteration", "anchors": ["dsx/mapx/ordmapx/ordmapx.go: Range, Clear", "dsx/mapx/sklmapx/sklmapx.go: Iterator.Next, Clear"]}
{"id": "C12", "title": "linkedx Queue is FIFO", "statement": "Dequeue returns the elements in the order they were enqueued, each exactly once, and (zero,false) when empty; Peek returns the element the next Dequeue will return; IsEmpty is true exactly when every enqueued element has been dequeued; no call panics.", "quantifier": "every history of Enqueue/Dequeue/Peek/IsEmpty and every behaviour of the node pool", "why_tests_cant": "every history and pool behaviour", "anchors": ["dsx/linkedx/queuex/queuex.go: Enqueue, Dequeue, Peek, IsEmpty"]}
{"id": "C13", "title": "linkedx Queue: what Dequeue really does", "statement": "On a queue that was only enqueued to with n elements x1..xn: IsEmpty, Peek are right; the k-th consecutive Dequeue (k<n) returns x(k+1) - the element after the one at the front - and the n-th panics with a nil dereference, whatever the pool does. The same, one element late, holds for every history that does not dequeue the last element, recycled nodes included.", "quantifier": "every sequence of enqueued values, every pool behaviour", "why_tests_cant": "every length", "anchors": ["dsx/linkedx/queuex/queuex.go: Enqueue, Dequeue"]}
{"id": "C14", "title": "linkedx Stack is LIFO", "statement": "Pop returns the most recently pushed element not yet popped, (zero,false) when empty, never panics; Peek returns what Pop would; Len is the number of elements.", "quantifier": "every history and pool behaviour", "why_tests_cant": "every history", "anchors": ["dsx/linkedx/stackx/stackx.go: Push, Pop, Peek, Len"]}
{"id": "C15", "title": "linkedx Stack: what Pop really does", "statement": "For every history that does not panic, Push/Peek/Len behave as a stack and Pop on a stack with top x over y returns y (not x) and removes x; Pop on a one-element stack panics; Pop on an empty stack returns (zero,false).", "quantifier": "every history, every pool behaviour", "why_tests_cant": "every history", "anchors": ["dsx/linkedx/stackx/stackx.go: Push, Pop, Peek, Len"]}
{"id": "C16", "title": "linkedx Deque is a double-ended queue", "statement": "PushFront/PushBack/PopFront/PopBack/PeekFront/PeekBack behave as on an ideal sequence on every history; no element is lost or duplicated; no call panics.", "quantifier": "every history and pool behaviour", "why_tests_cant": "chunk boundaries (64), recycled nodes with stale links, all histories", "anchors": ["dsx/linkedx/dequex/dequex.go: PushFront, PushBack, PopFront, PopBack, PeekFront, PeekBack"]}
{"id": "C17", "title": "linkedx Deque is correct until it is first emptied", "statement": "On every history in which the ideal sequence never becomes empty again after its first push (the pop that finally empties it included), every result agrees with the ideal sequence, for any number of 64-slot chunks and any node recycling.", "quantifier": "every such history, every pool behaviour", "why_tests_cant": "all histories across chunk boundaries", "anchors": ["dsx/linkedx/dequex/dequex.go: all methods"]}
{"id": "C18", "title": "linkedx List is an indexed sequence", "statement": "Append/Insert/Remove/At/Iterate/Len behave as on an ideal sequence: Insert(i,x) with 0<=i<=Len inserts before position i, Remove(i) with 0<=i<Len removes and returns position i, other indices change nothing, Len is the number of elements; no call panics.", "quantifier": "every history and every index", "why_tests_cant": "all histories and indices", "anchors": ["dsx/linkedx/listx/listx.go: Append, Insert, Remove, At, Iterate, Len"]}
{"id": "C19", "title": "linkedx List is correct away from its last position", "statement": "On every history of Append, Insert at 0<=i<Len, Remove at 0<=i<Len-1, At with any index, Iterate and Len, results agree with the ideal sequence for every pool behaviour.", "quantifier": "every such history", "why_tests_cant": "all histories", "anchors": ["dsx/linkedx/listx/listx.go: all methods"]}
{"id": "C20", "title": "slicex Ring is a bounded FIFO queue of its stated capacity", "statement": "New(n) with n>0 gives a queue with Cap()=n that accepts an Enqueue exactly when it holds fewer than n elements, returns elements in order, and never panics.", "quantifier": "every capacity, every history", "why_tests_cant": "index wrap-around", "anchors": ["dsx/slicex/queuex/queuex.go: New, Enqueue, Dequeue, Peek, Head, Cap, IsEmpty, IsFull"]}
{"id": "C21", "title": "slicex Ring: exact domain of correctness", "statement": "For every capacity n>0 and every history, the Ring agrees with an ideal bounded FIFO queue up to and excluding the (n+1)-th accepted Enqueue of its life, and an Enqueue that the ideal queue would accept as its (n+1)-th panics.", "quantifier": "every n, every history", "why_tests_cant": "all capacities and histories", "anchors": ["dsx/slicex/queuex/queuex.go: all"]}
{"id": "C22", "title": "slicex Stack is LIFO", "statement": "Push/Pop/Peek/IsEmpty/Len behave as an ideal stack on every history; no call panics.", "quantifier": "every history", "why_tests_cant": "every history", "anchors": ["dsx/slicex/stackx/stackx.go: New, Push, Pop, Peek, IsEmpty, Len"]}
{"id": "C23", "title": "slicex List is an indexed sequence", "statement": "Append/Insert/Remove/At/Iterate/Len behave as on an ideal sequence; Remove and At with an out-of-range index return (zero,false) and change nothing; Insert panics exactly when the index is outside [0,Len].", "quantifier": "every history and index", "why_tests_cant": "every history", "anchors": ["dsx/slicex/listx/listx.go: all"]}
{"id": "C24", "title": "Slice.Get/Set never panic and clamp", "statement": "For every int index, Get returns the element at the index clamped to [0,Len-1] (zero value when empty), Set replaces exactly that element (nothing when empty), and neither panics.", "quantifier": "every slice, every 64-bit index", "why_tests_cant": "all indices", "anchors": ["dsx/slicex/slicex.go: Get, Set, preprocIndexException"]}
{"id": "C25", "title": "Slice.Splice and its derivatives replace exactly one range", "statement": "For all ints i,j, Splice(i,j,v...) leaves s[:lo]+v+s[hi:] where lo<=hi are i,j clamped to [0,Len] and ordered; Expand, Insert, Cut, Push, UnShift are the corresponding special cases; none panics.", "quantifier": "every slice contents and capacity, all 64-bit i,j, every v, every growth decision of append", "why_tests_cant": "all indices and capacities", "anchors": ["dsx/slicex/slicex.go: Splice, Expand, Insert, Cut, Push, UnShift"]}
{"id": "C26", "title": "Slice.Delete removes at most one element", "statement": "Delete(i) removes the element at i when 0<=i<Len and otherwise leaves the slice unchanged, for every int i.", "quantifier": "every slice, every 64-bit index", "why_tests_cant": "extreme indices", "anchors": ["dsx/slicex/slicex.go: Delete"]}
{"id": "C27", "title": "Slice.Slice keeps exactly the requested sub-range", "statement": "Slice(i,j) keeps positions lo..hi-1 where a negative j counts from the end, and both are clamped and ordered; never panics.", "quantifier": "all slices and 64-bit i,j", "why_tests_cant": "all indices", "anchors": ["dsx/slicex/slicex.go: Slice"]}
{"id": "C28", "title": "Push/Pop and UnShift/Shift are inverse, and empty pops are harmless", "statement": "Pop after Push(v) returns v and restores the slice, Shift after UnShift(v) likewise; on a non-empty slice Pop/Shift return and remove the last/first element; on an empty slice they return the zero value and leave it empty.", "quantifier": "every slice and value", "why_tests_cant": "all", "anchors": ["dsx/slicex/slicex.go: Push, Pop, UnShift, Shift"]}
{"id": "C29", "title": "Slice.Reverse reverses in place", "statement": "Reverse turns the contents into their mirror image; applying it twice restores them; the multiset of elements is unchanged.", "quantifier": "every slice", "why_tests_cant": "every length", "anchors": ["dsx/slicex/slicex.go: Reverse"]}
{"id": "C30", "title": "Slice.Rotate rotates for every count", "statement": "Rotate(n) moves the element at position p to position (p-n) mod Len for every int n, never panics, and Rotate(-n) undoes Rotate(n).", "quantifier": "every slice and every 64-bit n", "why_tests_cant": "extreme counts", "anchors": ["dsx/slicex/slicex.go: Rotate"]}
{"id": "C31", "title": "Slice.Filter keeps exactly the matching elements in order", "statement": "Filter(f) leaves the elements satisfying f in their original order, calling f once per element in order.", "quantifier": "every slice and predicate", "why_tests_cant": "all", "anchors": ["dsx/slicex/slicex.go: Filter"]}
{"id": "C32", "title": "Slice.Shuffle permutes", "statement": "Whatever the random source does, Shuffle leaves a permutation of the original elements. Every arrangement can come out; each arrangement of distinct elements comes from exactly one of the len! sequences of answers of the random source, so all are equally likely if those are.", "quantifier": "every sequence of in-range swaps", "why_tests_cant": "random", "anchors": ["dsx/slicex/slicex.go: Shuffle"]}
{"id": "C33", "title": "Slice.Split partitions", "statement": "For non-negative split sizes, the concatenation of the returned pieces is the original slice, for all sizes; with negative sizes every piece is still a contiguous in-range segment and nothing panics.", "quantifier": "every slice, every list of 64-bit sizes", "why_tests_cant": "extreme sizes", "anchors": ["dsx/slicex/slicex.go: Split"]}
{"id": "C34", "title": "Slice.Batch partitions into equal batches", "statement": "Batch(size) returns contiguous batches whose concatenation is the original slice; every batch but the last has exactly max(size,1) elements, the last has between 1 and that many; an empty slice gives no batch.", "quantifier": "every slice, every size", "why_tests_cant": "all", "anchors": ["dsx/slicex/slicex.go: Batch, Split"]}
{"id": "C35", "title": "Slice.Repeat, Extend, DeleteReplace, Clear", "statement": "Repeat(k) gives k copies back to back for k>=0; Extend(n) appends max(n,0) zero values; DeleteReplace(i) replaces position i by the last element and drops the last; Clear empties; none panics for any int argument.", "quantifier": "every slice, every argument", "why_tests_cant": "extreme arguments", "anchors": ["dsx/slicex/slicex.go: Repeat, Extend, DeleteReplace, Clear"]}
{"id": "C36", "title": "Slice.Copy is independent", "statement": "After c := s.Copy(), no sequence of element writes or method calls on c changes what is read through s, and vice versa.", "quantifier": "every slice, every growth decision, every later write", "why_tests_cant": "aliasing depends on spare capacity", "anchors": ["dsx/slicex/slicex.go: Copy"]}
{"id": "C37", "title": "Splice does not disturb the caller's other slices", "statement": "Splice(i,j,v...) changes only the receiver: the caller's argument slice v and memory past its length are unchanged.", "quantifier": "every receiver, argument slice and capacity", "why_tests_cant": "aliasing depends on spare capacity", "anchors": ["dsx/slicex/slicex.go: Splice, Rotate"]}
{"id": "C38", "title": "Slice.IndexOf/Contains/Each/ForEach/Join agree with the sequence", "statement": "IndexOf(f) is the least index satisfying f or -1; Contains(f) iff some element satisfies f; Each/ForEach call f once per element in order (with its index); Join is the rendered elements separated by sep.", "quantifier": "every slice and predicate", "why_tests_cant": "all", "anchors": ["dsx/slicex/slicex.go: IndexOf, Contains, Each, ForEach, Join, Len, Finalize"]}
{"id": "C39", "title": "BitSet is a set of small integers", "statement": "For every word width w in {8,16,32,64} and every history of Set, Clear, Toggle, SetAll, ClearAll, ToggleAll with non-negative indices, Test(i) for one index is true iff i<w and i is in the ideal set; IsEmpty/IsFull are exact; indices >= w are ignored; a negative index panics.", "quantifier": "every width, history, index list", "why_tests_cant": "all histories", "anchors": ["dsx/setx/bitsetx/bitsetx.go: all"]}
{"id": "C40", "title": "BitSet.Test with several indices", "statement": "Test(i1..in) of non-negative indices is true iff at least one of them is a member (false for no index). With negative ones it panics exactly if the first of them comes before the first member.", "quantifier": "every set and index list", "why_tests_cant": "all", "anchors": ["dsx/setx/bitsetx/bitsetx.go: Test"]}
{"id": "C41", "title": "Option and Result dispatch exactly one branch", "statement": "Match on Some(x) returns f(x) and never calls g; on None returns g(); Result.Match on Ok(x) returns f(x), on Err(e) returns g(e), calling exactly one of them once.", "quantifier": "every value and handler", "why_tests_cant": "parametric", "anchors": ["functionalx/optionx/optionx.go: Some, None, Option.Match", "functionalx/resultx/resultx.go: Ok, Err, Result.Match"]}
{"id": "C42", "title": "Lazy constructs at most once and all readers agree", "statement": "Under any interleaving of any number of Get calls, the constructor runs at most once, no Get returns before it finished, and every Get returns the constructor's value.", "quantifier": "every schedule of any number of goroutines", "why_tests_cant": "schedules", "anchors": ["functionalx/lazyx/lazy.go: New, Lazy.Get"]}
{"id": "C43", "title": "optionalx.Parameter applies options left to right", "statement": "Parameter(c, f1..fn) returns c(fn(...f1(nil))): every option once, in order.", "quantifier": "every list of options", "why_tests_cant": "parametric", "anchors": ["configx/optionalx/optionalx.go: Parameter"]}
{"id": "C44", "title": "lockx.Lock gives mutual exclusion and runs the callback", "statement": "For every target object, Lock(l,f) runs f exactly once, at most one callback on the same l runs at a time, and the object is unlocked afterwards.", "quantifier": "every object, schedule and number of goroutines", "why_tests_cant": "schedules", "anchors": ["syncx/lockx/lockx.go: Lock"]}
{"id": "C45", "title": "lockx.Lock: exact behaviour", "statement": "If the object's first word is not its own address, Lock never runs the callback and never returns; if it is (and callbacks leave that word alone), callbacks on it are mutually exclusive under every schedule and each Lock call runs its callback at most once, the word being nil exactly while some callback runs.", "quantifier": "every schedule, any number of goroutines", "why_tests_cant": "schedules", "anchors": ["syncx/lockx/lockx.go: Lock"]}
{"id": "C46", "title": "syncpoolx.Pool hands out no object twice", "statement": "Under any sequence of Get/Put on an initialised pool in which only held objects are Put, no object is held by two Gets at once, and every object handed out was either put back before or freshly made by New.", "quantifier": "every history, every pool choice", "why_tests_cant": "pool nondeterminism", "anchors": ["syncx/syncpoolx/syncpoolx.go: Init, Get, Put"]}
{"id": "C47", "title": "syncmapx.Map is linearizable", "statement": "Under every interleaving of any number of goroutines calling Get/Has/Size/Keys/Values/Set/Delete/Clear, each completed call returns what it would return if all calls were executed one at a time in some order consistent with real time.", "quantifier": "every schedule, any number of goroutines", "why_tests_cant": "schedules", "anchors": ["dsx/mapx/syncmapx/syncmapx.go: all"]}
{"id": "C48", "title": "Truncate rounds down to the granularity", "statement": "Truncate(sec,d) with d>0 returns the largest multiple of d seconds since January 1, year 1 UTC that is <= sec; hence it is idempotent, monotone, and within d seconds below sec.", "quantifier": "every sec and d", "why_tests_cant": "all 64-bit inputs, negative times", "anchors": ["timex/truncatex/truncatex.go: Truncate"]}
{"id": "C49", "title": "TruncateSec/Min/Hour/Day/Week give the start of the unit", "statement": "TruncateMin/Hour/Day return the start of the UTC minute/hour/day containing sec, TruncateWeek the preceding Monday 00:00 UTC, for times before and after 1970.", "quantifier": "every sec whose offset from year 1 fits in 64 bits", "why_tests_cant": "all inputs incl. negative", "anchors": ["timex/truncatex/truncatex.go: TruncateSec, TruncateMin, TruncateHour, TruncateDay, TruncateWeek"]}
{"id": "C50", "title": "TruncateYear/TruncateMonth give the start of the calendar year/month", "statement": "The result is 00:00 UTC on the 1st of the Gregorian year/month that contains sec: result <= sec < start of the next year/month.", "quantifier": "every sec representable by package time", "why_tests_cant": "leap years, century rules, all inputs", "anchors": ["timex/truncatex/truncatex.go: TruncateYear, TruncateMonth"]}
{"id": "C51", "title": "Differ measures elapsed time", "statement": "If Start is called before End, GetDiff() is the elapsed time and is never negative.", "quantifier": "every behaviour of the wall clock", "why_tests_cant": "clock steps", "anchors": ["timex/diffx/diffx.go: Start, End, GetDiff", "timex/timex.go: Now"]}
{"id": "C52", "title": "A Sleeper has at most one sleeper at a time", "statement": "Under every interleaving, a Sleep* call made while another is in progress on the same Sleeper returns false at once, and at most one is in progress; a Sleep* call that got to sleep returns true when it ends.", "quantifier": "every schedule", "why_tests_cant": "schedules", "anchors": ["timex/sleepx/sleepx.go: SleepFor, SleepUntil, SleepForever"]}
{"id": "C53", "title": "Wakeup wakes the sleeper", "statement": "If Wakeup returns true, a Sleep* call in progress at that time ends as a result.", "quantifier": "every schedule", "why_tests_cant": "schedules", "anchors": ["timex/sleepx/sleepx.go: Wakeup, SleepForever"]}
{"id": "C54", "title": "SleepFor sleeps for the given duration", "statement": "SleepFor(d) without Wakeup sleeps for d.", "quantifier": "every duration", "why_tests_cant": "all durations", "anchors": ["timex/sleepx/sleepx.go: SleepFor"]}
{"id": "C55", "title": "Intersection is sound", "statement": "If Intersection over M>=2 intervals reports ok with (a,b), then a<=b, there is F<M/2 such that a and b each lie in at least M-F of the intervals, at least M-2F>=1 intervals contain all of [a,b], and at most F of the midpoints lie outside [a,b]; whatever order the unstable sort gives to ties. For one interval the result is exactly that interval.", "quantifier": "every list of intervals (no int64 overflow of offset+-band), every tie order", "why_tests_cant": "all inputs and tie orders", "anchors": ["timex/intersectionx/intersectionx.go: Intersection, intersection"]}
{"id": "C56", "title": "Intersection finds full agreement", "statement": "If all intervals have a common region that contains all their midpoints in its interior, Intersection reports exactly that region.", "quantifier": "every list of at least two intervals", "why_tests_cant": "all inputs", "anchors": ["timex/intersectionx/intersectionx.go: Intersection, intersection"]}
{"id": "C57", "title": "Intersection does not depend on argument order", "statement": "Permuting the arguments does not change the result.", "quantifier": "every permutation", "why_tests_cant": "ties", "anchors": ["timex/intersectionx/intersectionx.go: Intersection, iSlice.Less"]}
{"id": "C58", "title": "TimedPool handles every accepted job exactly once", "statement": "Under every interleaving of Run, Stop, idle collection and workers, each Run that returns true has its value passed to the handler at most once, never lost: at any time accepted values = handled + in progress + queued in a worker's channel; values of Run calls that returned false are never handled; no send on or close of a closed channel happens.", "quantifier": "every schedule", "why_tests_cant": "schedules", "anchors": ["poolx/gopoolx/timedpool.go: Run, tworker, free, start, Stop"]}
{"id": "C59", "title": "TimedPool never exceeds maxWorkers", "statement": "The number of worker goroutines and hence of handlers running at once never exceeds maxWorkers.", "quantifier": "every schedule and construction parameter", "why_tests_cant": "schedules", "anchors": ["poolx/gopoolx/timedpool.go: NewTimedPool, start, Run, Workers"]}
{"id": "C60", "title": "TimedPool drains after Stop", "statement": "After Stop has been processed, Run returns false for ever, and once no goroutine can move every accepted job has been handled and Workers() is 0.", "quantifier": "every schedule", "why_tests_cant": "schedules", "anchors": ["poolx/gopoolx/timedpool.go: Stop, start, free, tworker"]}
{"id": "C61", "title": "TimedPool collects exactly the workers idle longer than idleTimeout", "statement": "Each collection closes exactly the idle workers whose last activity is older than idleTimeout, and never a busy one.", "quantifier": "every set of idle workers and every clock value", "why_tests_cant": "schedules and clock", "anchors": ["poolx/gopoolx/timedpool.go: start (binary search), free"]}
{"id": "C62", "title": "NewTimedPool validates its arguments", "statement": "NewTimedPool returns an error exactly when maxWorkers<=0, handler is nil, idleTimeout<=0 or gcPeriod<=0, checked in that order.", "quantifier": "all arguments", "why_tests_cant": "all", "anchors": ["poolx/gopoolx/timedpool.go: NewTimedPool"]}
{"id": "C63", "title": "usingx.Close closes everything exactly once", "statement": "The function returned by Close runs the body and then calls Close once on every closer in order, even if the body panics (the panic then continues), and returns exactly the non-nil errors in order (nil if none).", "quantifier": "every list of closers, every body outcome, every closer outcome", "why_tests_cant": "panics", "anchors": ["iox/usingx/using.go: Close"]}
{"id": "C64", "title": "CloseManager closes all in order and reports the errors", "statement": "Close calls every appended closer once per Close call in Append order, whatever errors they return, and AsErrs of its result is exactly the list of errors in order.", "quantifier": "every list of closers, every outcome", "why_tests_cant": "all", "anchors": ["iox/managerx/closex/manager.go: New, Append, Close", "iox/managerx/closex/types.go: AsErrs", "iox/managerx/closex/default.go: Append, Close"]}
{"id": "C65", "title": "CloseManager.Close returns nil on success", "statement": "Close returns a nil error when every closer succeeds.", "quantifier": "every list", "why_tests_cant": "Go typed-nil/empty error subtleties", "anchors": ["iox/managerx/closex/manager.go: Close"]}
{"id": "C66", "title": "Decoupler is FIFO and drops only when full", "statement": "Used from one goroutine: Write(b) with non-empty b stores b unless `size` messages are stored, in which case it calls drop; Next delivers the oldest stored message, returns false when there is none, and never hangs.", "quantifier": "every size>0 and every history", "why_tests_cant": "all histories", "anchors": ["iox/decouplex/decouple.go: NewDecoupler, Write, Next"]}
{"id": "C67", "title": "Decoupler is FIFO as long as nothing is dropped", "statement": "From one goroutine, every history in which no Write meets a full buffer behaves exactly as a FIFO queue (messages delivered byte for byte, in order, once); empty writes go to drop and store nothing.", "quantifier": "every size>0, every such history", "why_tests_cant": "all histories, slot wrap-around", "anchors": ["iox/decouplex/decouple.go: Write, Next"]}
{"id": "C68", "title": "Decoupler loses, duplicates and corrupts nothing under concurrency", "statement": "With any number of writer goroutines and one reader, under every interleaving of the atomic steps: each message whose Write stored it is delivered at most once, only stored messages are delivered, byte for byte, and stored = delivered + still in the buffer; at most `size` messages are in the buffer. A Write drops its message only if it is empty or the buffer is full.", "quantifier": "every schedule, any number of writers, every size", "why_tests_cant": "schedules", "anchors": ["iox/decouplex/decouple.go: Write, Next"]}
{"id": "C69", "title": "convx registry: latest registration wins", "statement": "For concrete (non-interface) types T,R, after any history Exists[T,R] holds iff the last Register/Unregister for (T,R) was a Register, and Into[T,R](v) then returns (f(v),true) for the last registered f, otherwise (zero,false); other pairs are unaffected; IntoOr returns the default exactly when Into fails.", "quantifier": "every history, every pair of types", "why_tests_cant": "all histories", "anchors": ["typex/convx/convx.go: Register, Unregister, Exists, Into, IntoOr"]}
{"id": "C70", "title": "convx registry works for interface types", "statement": "The same law for interface types T or R.", "quantifier": "every pair of types", "why_tests_cant": "reflection corner", "anchors": ["typex/convx/convx.go: Register, Into (reflect.TypeOf(*new(T)) vs reflect.TypeOf(value))"]}
{"id": "C71", "title": "Integer conversions keep representable values and wrap otherwise", "statement": "Converting an integer between any two built-in integer types yields the same number when it is representable in the target and the value congruent modulo 2^width otherwise; converting to a type that can hold the source range and back is the identity.", "quantifier": "every value of every type", "why_tests_cant": "all values", "anchors": ["typex/convx/converters.go: integerToInteger", "typex/convx/init.go"]}
{"id": "C72", "title": "Integer to string and back is the identity", "statement": "For every built-in integer type and value x, converting x to string gives its decimal representation and converting that string back to the same type gives x.", "quantifier": "every value", "why_tests_cant": "2^64 values", "anchors": ["typex/convx/converters.go: intToString, uintToString, stringToInteger, stringToUinteger"]}
{"id": "C73", "title": "String to integer conversion reports invalid or out-of-range input", "statement": "Converting a string that is not a decimal integer in the range of the target type does not report success with a different number.", "quantifier": "every string", "why_tests_cant": "all strings", "anchors": ["typex/convx/converters.go: stringToInteger, stringToUinteger", "typex/convx/convx.go: Into"]}
{"id": "C74", "title": "Bool conversions", "statement": "bool->string->bool and bool->integer->bool are the identity; integer->bool and float->bool are true exactly for non-zero values (NaN included); string->bool is true exactly for 1,t,T,TRUE,true,True.", "quantifier": "every value and string", "why_tests_cant": "all strings", "anchors": ["typex/convx/converters.go: boolToString, stringToBool, boolToInteger, intToBool"]}
{"id": "C75", "title": "Bytes/string/runes conversions round-trip", "statement": "converting a string, bool, byte slice or rune slice to its own type changes nothing; string->bytes->string is the identity on all strings, bytes->string->bytes on all byte slices; runes->string->runes is the identity exactly on slices of Unicode scalar values (anything else becomes U+FFFD), and string->runes->string is the identity on valid UTF-8.", "quantifier": "every byte string and rune slice", "why_tests_cant": "all strings", "anchors": ["typex/convx/converters.go: stringToBytes, bytesToString, stringToRunes, runesToString"]}
{"id": "C76", "title": "PasswordHash codec round-trips", "statement": "For every parameter byte, salt and hash, the record built by New_PasswordHash validates and Param/Salt/Hash return exactly the inputs; its length is 17+len(salt)+len(hash).", "quantifier": "every salt and hash (lengths below 2^63)", "why_tests_cant": "all lengths", "anchors": ["cryptox/passhashx/internal/passhash.vstruct.go: New_PasswordHash, Serialize_PasswordHash, Vstruct_Validate, Param, Salt, Hash"]}
{"id": "C77", "title": "PasswordHash accessors are safe on validated input", "statement": "For every byte string, if Vstruct_Validate accepts it then Param, Salt and Hash do not panic; Verify never panics on any byte string.", "quantifier": "every byte string", "why_tests_cant": "adversarial input", "anchors": ["cryptox/passhashx/internal/passhash.vstruct.go: Vstruct_Validate, Salt, Hash", "cryptox/passhashx/passhash.go: Verify"]}
{"id": "C78", "title": "Verify accepts what Hash produced and rejects a different digest", "statement": "For every password and valid security level, whatever the random salt, Verify(p, Hash(p, level)) = nil; Verify(q, Hash(p,level)) = nil iff the algorithm maps p and q to the same digest under that salt, otherwise ErrHashMismatch; an invalid level gives ErrInvalidSecurityLevel; an unknown parameter byte gives ErrUnknownAlgorithm; the same for the Base64 variants.", "quantifier": "every password, salt, level, KDF", "why_tests_cant": "all", "anchors": ["cryptox/passhashx/passhash.go: Hash, Verify, HashBase64, VerifyBase64, security_level"]}
{"id": "C79", "title": "Password hash records are non-malleable", "statement": "At most one encoding of a (param, salt, hash) triple verifies: a record with extra bytes appended is rejected.", "quantifier": "every record", "why_tests_cant": "adversarial input", "anchors": ["cryptox/passhashx/internal/passhash.vstruct.go: Vstruct_Validate", "cryptox/passhashx/passhash.go: Verify"]}
{"id": "C80", "title": "AES-CBC/CTR/GCM helpers round-trip", "statement": "For every key and data, and whatever IV/nonce is drawn, Decrypt(Encrypt(data,key),key) = data for CTR and GCM, and for CBC when len(data) is a multiple of 16.", "quantifier": "every key, data, IV", "why_tests_cant": "all", "anchors": ["cryptox/aesx/cbcx.go", "cryptox/aesx/ctrx.go", "cryptox/aesx/gcmx.go"]}
{"id": "C81", "title": "AES helpers never panic", "statement": "Encrypt*/Decrypt* return an error rather than panic for every data and key.", "quantifier": "every data", "why_tests_cant": "lengths", "anchors": ["cryptox/aesx/cbcx.go", "cryptox/aesx/ctrx.go", "cryptox/aesx/gcmx.go"]}
{"id": "C82", "title": "bcryptx accepts exactly the right password", "statement": "Encrypt rejects passwords longer than 72 bytes and otherwise Decrypt(Encrypt(p), q) is true iff q = p (up to collisions of the hash itself).", "quantifier": "all passwords", "why_tests_cant": "length limit, cyclic key schedule", "anchors": ["cryptox/bcryptx/bcryptx.go: Encrypt, Decrypt"]}
{"id": "C83", "title": "searchx.Search finds the leftmost position", "statement": "On an ascending slice, Search returns the least index whose element is >= x (the insertion point) and true iff x is present; on any slice it terminates without panic with an index in [0,len], and found=true implies the element equals x.", "quantifier": "every slice and key", "why_tests_cant": "all lengths", "anchors": ["algox/searchx/searchx.go: Search, SearchCustom"]}
{"id": "C84", "title": "sortx.Sort honours its reverse flag", "statement": "Sort(s,false) sorts ascending and Sort(s,true) sorts descending, both permuting the elements.", "quantifier": "every slice", "why_tests_cant": "all", "anchors": ["algox/sortx/sortx.go: Sort"]}
{"id": "C85", "title": "sortx sorting functions sort, and agree with IsSorted", "statement": "SortReverse/SortStable/SortStableReverse leave a permutation in the right order; the stable ones keep the order of equivalent elements (SortStableCustom); IsSorted* return true exactly on slices in that order, in particular right after the matching sort.", "quantifier": "every slice and strict weak order", "why_tests_cant": "all", "anchors": ["algox/sortx/sortx.go: all"]}
{"id": "C86", "title": "HandleKillSig survives repeated signals", "statement": "Each SIGINT/SIGQUIT/SIGTERM runs the handler and the notification channel is closed after the first; further signals do not crash the process.", "quantifier": "every sequence of signals", "why_tests_cant": "signal histories", "anchors": ["osx/closex/closex.go: HandleKillSig"]}
{"id": "C87", "title": "Iteration during mutation is weakly consistent", "statement": "However Set and Del calls are interleaved with the Next calls of one iterator (without Clear), the keys Next returns are strictly ascending, every returned key was present at some moment since the iterator was created, once ok=false is returned every key that was present during the whole iteration has been returned, and Next does not panic before that.", "quantifier": "every map history, every interleaving of mutations and Next calls, every seed", "why_tests_cant": "all interleavings and all towers", "anchors": ["dsx/mapx/sklmapx/sklmapx.go: Iterator.Next, skl.insert, skl.delete"]}
{"id": "C88", "title": "lockx.Lock releases the object when the callback panics", "statement": "If a callback passed to Lock panics, the object is unlocked again and later Lock calls proceed.", "quantifier": "every schedule", "why_tests_cant": "schedules", "anchors": ["syncx/lockx/lockx.go: Lock"]}
{"id": "C89", "title": "Run returns false once TimedPool.Stop has returned", "statement": "If Stop has returned, every Run that is called afterwards returns false.", "quantifier": "every schedule", "why_tests_cant": "Needs the exact moment between the collector's receive and its critical section.", "anchors": ["poolx/gopoolx/timedpool.go: TimedPool.Stop, TimedPool.Run, TimedPool.start"]}
{"id": "C90", "title": "TimedPool.Stop can be called again", "statement": "A Stop called after another Stop has returned returns immediately; of two Stop calls that overlap, both return.", "quantifier": "every schedule", "why_tests_cant": "A hang that needs two overlapping calls.", "anchors": ["poolx/gopoolx/timedpool.go: TimedPool.Stop"]}
{"id": "C91", "title": "ErrorList.Error lists every error in order", "statement": "The message is, for each error in order, the line \"error - \" followed by its type, and then a line with its message; nothing else.", "quantifier": "every list of errors, type names and messages", "why_tests_cant": "All lists, including empty messages and messages with line breaks.", "anchors": ["iox/managerx/closex/types.go: ErrorList.Error"]}
{"id": "C92", "title": "Decoupler of size 0", "statement": "NewDecoupler with size 0 gives a decoupler whose Next returns false and whose Write panics at the first non-empty message (modulo by zero).", "quantifier": "every non-empty message", "why_tests_cant": "A boundary of the constructor that is not checked there.", "anchors": ["iox/decouplex/decouple.go: NewDecoupler, Write, Next"]}
{"id": "C93", "title": "Decoupler keeps the order of concurrent writers", "statement": "With several writers and one reader and no message dropped, Next delivers messages in the order in which their Write calls stored them, and never waits for ever when a stored message is there.", "quantifier": "every schedule, any number of writers, every size", "why_tests_cant": "Needs a Write that finds its slot full and retries after the reader has made room.", "anchors": ["iox/decouplex/decouple.go: Write, Next"]}
{"id": "C94", "title": "SearchCustom finds the split point", "statement": "If the elements of the slice that compare below the key are exactly its first p ones, SearchCustom returns p, and true exactly when element p compares equal, in at most 64 rounds.", "quantifier": "every slice, key and comparison function with that split", "why_tests_cant": "All comparison functions.", "anchors": ["algox/searchx/searchx.go: SearchCustom"]}
{"id": "C95", "title": "IsSorted on floats", "statement": "IsSorted returns true exactly on ascending slices, also for float slices that hold NaN.", "quantifier": "every slice", "why_tests_cant": "NaN is incomparable with everything.", "anchors": ["algox/sortx/sortx.go: IsSorted"]}
{"id": "C96", "title": "Integers survive a float", "statement": "Converting an integer to float64 (float32) and back gives the same integer.", "quantifier": "every integer value of every integer type", "why_tests_cant": "All values; fails only above 2^53.", "anchors": ["typex/convx/converters.go: integerToInteger"]}
{"id": "C97", "title": "Floats keep their value between formats and through text", "statement": "float32->float64->float32 is the identity, converting a float type to itself is the identity, and float->string->float is the identity for float32 and float64.", "quantifier": "every float value, including subnormals, infinities and NaN", "why_tests_cant": "2^64 values.", "anchors": ["typex/convx/converters.go: integerToInteger, floatToString, stringToFloat"]}
{"id": "C98", "title": "Which conversions are built in", "statement": "After init exactly these pairs have a converter: any number type with any number type, string or bool in both directions, string and bool among themselves, string with []byte and []rune in both directions, []byte and []rune to themselves; no pair is registered twice.", "quantifier": "every pair of built-in types", "why_tests_cant": "Two hundred registrations by hand.", "anchors": ["typex/convx/init.go: init"]}
{"id": "C99", "title": "Text to float32 is correctly rounded", "statement": "Converting a decimal string to float32 gives the float32 nearest to the number it denotes.", "quantifier": "every decimal string", "why_tests_cant": "Double rounding shows on few inputs.", "anchors": ["typex/convx/converters.go: stringToFloat"]}
{"id": "C100", "title": "DecryptGCM accepts only sealed data", "statement": "If DecryptGCM(x, key) returns data then x is a 12-byte nonce followed by exactly Seal(nonce, data) under the hashed key; a ciphertext whose tag is not the one computed for it gives an error.", "quantifier": "every byte string, key, cipher and tag function", "why_tests_cant": "adversarial input", "anchors": ["cryptox/aesx/gcmx.go: DecryptGCM"]}
{"id": "C101", "title": "CTR and CBC helpers do not authenticate", "statement": "DecryptCTR accepts every string of at least 16 bytes under every key; flipping bits of a CTR ciphertext flips exactly those bits of the data, flipping bits of the CBC header flips exactly those bits of the first block, and two CTR ciphertexts under one IV differ as the data do.", "quantifier": "every data, key, IV, bit mask and block cipher", "why_tests_cant": "all masks and lengths", "anchors": ["cryptox/aesx/ctrx.go: EncryptCTR, DecryptCTR", "cryptox/aesx/cbcx.go: EncryptCBC, DecryptCBC"]}
{"id": "C102", "title": "Which passwords bcrypt confuses", "statement": "Two passwords without NUL bytes have the same bcrypt key exactly if their first 72 bytes agree; for every p, the password p NUL p has the same key as p.", "quantifier": "all passwords", "why_tests_cant": "unbounded", "anchors": ["cryptox/bcryptx/bcryptx.go: Encrypt, Decrypt"]}
{"id": "C103", "title": "Custom is the instant sec s and nsec ns after the epoch", "statement": "timex.Custom(sec, nsec) is the instant sec seconds and nsec nanoseconds after the Unix epoch, with the nanosecond part normalised to [0, 1e9).", "quantifier": "every pair of int64 arguments", "why_tests_cant": "A wrap-around needs arguments at the edge of int64.", "anchors": ["timex/timex.go: Custom, Now"]}
{"id": "C104", "title": "autotidy and autoupdate visit every module directory once", "statement": "Each tool runs its command exactly once in every directory below the start that is not vendor or .git or below one, in no other directory, a parent before its children, and ends in the directory it started from.", "quantifier": "every file tree and every start directory", "why_tests_cant": "Permission failures and odd trees are not in a test fixture.", "anchors": ["cmd/autotidy/autotidy.go: main", "cmd/autoupdate/autoupdate.go: main"]}
{"id": "C105", "title": "linkedx List: exact behaviour", "statement": "The list behaves on every history as a sequence, a counter of calls and the position of the node it takes for the last one: Append drops everything behind that node, is lost if that node has been removed, and the removed node can come back; Len counts calls; nothing hangs, and the only panic is an Insert at Len+1 before the first Append.", "quantifier": "every history of calls and every behaviour of the node pool", "why_tests_cant": "needs particular pool decisions", "anchors": ["dsx/linkedx/listx/listx.go: Append, Insert, Remove, At, Iterate, Len"]}
{"id": "C106", "title": "convx is safe for concurrent use", "statement": "However goroutines interleave Register, Unregister, Exists, Into and IntoOr, no two of them are in the maps while one writes, and every call answers according to the converter registered last for its pair of types at one moment between call and return; for Into this is still the registered one when its converter returns.", "quantifier": "every program of goroutines and converters, every interleaving", "why_tests_cant": "Interleavings, and converters that call convx.", "anchors": ["typex/convx/convx.go: Register, Unregister, Exists, Into, IntoOr"]}
{"id": "C107", "title": "Converters may use convx", "statement": "A converter may call Into, Exists, Register and Unregister: every call eventually goes on, whatever the other goroutines do.", "quantifier": "every program of goroutines and converters, every interleaving", "why_tests_cant": "The hang needs a writer between two calls of RLock by one goroutine.", "anchors": ["typex/convx/convx.go: Into, Register, Unregister"]}
{"id": "C108", "title": "A Lazy may be used by its own constructor", "statement": "A constructor that calls Get of the Lazy it constructs gets an answer, and the other goroutines that call Get get one too.", "quantifier": "every constructor, any number of goroutines, every interleaving", "why_tests_cant": "It hangs: a test cannot tell that from slow.", "anchors": ["functionalx/lazyx/lazy.go: Get"]}
{"id": "C109", "title": "CloseManager is safe for concurrent use", "statement": "However goroutines interleave Append and Close, no closer that was appended is lost, and each Close that returns has called, in order and without anything in between, exactly the closers appended before it, and returns exactly their errors.", "quantifier": "every program of goroutines and closers, every interleaving", "why_tests_cant": "Interleavings.", "anchors": ["iox/managerx/closex/manager.go: Append, Close"]}
{"id": "C110", "title": "Closers may use their CloseManager", "statement": "A closer may call Append or Close of the manager that is closing it.", "quantifier": "every program of goroutines and closers, every interleaving", "why_tests_cant": "It hangs: a test cannot tell that from slow.", "anchors": ["iox/managerx/closex/manager.go: Append, Close"]}
{"id": "C111", "title": "OrdMap.Range shows its callback the live map", "statement": "A callback of Range may call every method of the map except Clear: each visit is of the smallest key then present above the key visited last, with the value it then has, and the calls of the callback answer as on the map as it is then.", "quantifier": "every map, every callback program, any number of visits", "why_tests_cant": "A program as callback, unbounded maps.", "anchors": ["dsx/mapx/ordmapx/ordmapx.go: Range, Set, Del", "dsx/mapx/sklmapx/sklmapx.go: Iterator.Next"]}
{"id": "C112", "title": "Handlers may use the pool", "statement": "A handler may call Run and Stop of the pool it runs in: the pool keeps all its properties, and every such call comes to an end.", "quantifier": "every handler program, every number of goroutines, every interleaving", "why_tests_cant": "Programs as handlers; a hang looks like slowness.", "anchors": ["poolx/gopoolx/timedpool.go: Run, Stop, tworker"]}
{"id": "C113", "title": "Callbacks of a Decoupler may use it", "statement": "The drop function and the functions given to Next may call Write and Next of the decoupler: messages come out in the order in which they were stored, each once, and every call returns.", "quantifier": "every drop function and view as a program, any nesting, any size, every history below 2^64 slot numbers", "why_tests_cant": "Programs as callbacks; a hang looks like slowness.", "anchors": ["iox/decouplex/decouple.go: Write, Next"]}
{"id": "C114", "title": "A drop function can keep the newest messages", "statement": "With a drop function that discards the oldest message and writes the new one again, the decoupler is a bounded FIFO queue that keeps the newest messages.", "quantifier": "every size, every history of Write (non-empty) and Next below 2^64 slot numbers", "why_tests_cant": "Every history; the interplay of skipped slot numbers with the search for a free slot.", "anchors": ["iox/decouplex/decouple.go: Write, Next"]}
{"id": "C115", "title": "Callbacks of a Slice may use it", "statement": "Whatever methods of the slice the callback calls, ForEach, Each, IndexOf, Contains and Filter call it on the elements the slice had at the start, in order, and every call the callback makes answers and acts as on the list of elements.", "quantifier": "every slice, every callback program, every growth the runtime chooses", "why_tests_cant": "Programs as callbacks; what is seen depends on spare capacity.", "anchors": ["dsx/slicex/slicex.go: ForEach, Each, IndexOf, Contains, Filter"]}
{"id": "C116", "title": "AES helpers write the standard formats", "statement": "EncryptCTR writes the iv and the data xored with the cipher of the counters iv, iv+1, ... (128 bits, big endian); EncryptGCM writes nonce, data xored with the cipher of nonce and counters 2, 3, ..., and the tag; EncryptCBC chains blocks from the iv; in CTR and GCM equal blocks at different places never encrypt to equal blocks.", "quantifier": "every data, key, iv, cipher and hash", "why_tests_cant": "All lengths; a counter that stands still round-trips as well.", "anchors": ["cryptox/aesx/ctrx.go: EncryptCTR", "cryptox/aesx/gcmx.go: EncryptGCM", "cryptox/aesx/cbcx.go: EncryptCBC"]}
{"id": "C117", "title": "syncmapx survives keys the map refuses", "statement": "A call with a key whose hash panics (a struct holding an interface that holds a slice, say) panics and has no other effect: all other calls go on as if it had not been made.", "quantifier": "every program of goroutines, every set of such keys, every interleaving", "why_tests_cant": "The hang shows in the calls after the panic, under contention.", "anchors": ["dsx/mapx/syncmapx/syncmapx.go: Get, Has, Set, Delete"]}
{"id": "C118", "title": "Callbacks of a linked List may use it", "statement": "Whatever methods of the list the callback of Iterate calls, it is shown each element as it is when its turn comes: what is put in ahead is shown, what is taken out ahead is not, and nothing is shown twice or skipped because of a change behind; its calls act as on the sequence of elements.", "quantifier": "every history, every callback program, any number of calls of the callback", "why_tests_cant": "Programs as callbacks; what is seen depends on the nodes that sync.Pool hands out; a walk that never ends looks like slowness.", "anchors": ["dsx/linkedx/listx/listx.go: Iterate, Append, Insert, Remove"]}
{"id": "C119", "title": "The implementations of dsx.List can be exchanged", "statement": "A program that uses a dsx.List gets the same answers from the linked one and from the slice one, whatever the pool of the one and the growth of the other; Iterate of the slice one shows its callback the elements the list had at the start.", "quantifier": "every history, every callback program, every pool behaviour, every growth", "why_tests_cant": "Two implementations on every history; callbacks are programs.", "anchors": ["dsx/dsx.go: List", "dsx/linkedx/listx/listx.go: List", "dsx/slicex/listx/listx.go: List, Iterate"]}
{"id": "C120", "title": "Tower heights are those of a fair coin", "statement": "The outputs of the generator are those of splitmix64; a tower is as high as the position of the first odd output, at most 16; for every position exactly half of the seeds give an odd output, so half of the seeds give height 1.", "quantifier": "every 64-bit seed, every position", "why_tests_cant": "2^64 seeds.", "anchors": ["dsx/mapx/sklmapx/splitmix64.go: next", "dsx/mapx/sklmapx/sklmapx.go: rand_height"]}
{"id": "C121", "title": "Every level is the sorted list of the keys that reach it", "statement": "After any history of operations, level i links exactly the present keys whose towers are higher than i, in ascending order, and each present key has the height that was tossed when it was inserted.", "quantifier": "every history, every seed, every level", "why_tests_cant": "Structure that no result shows; only speed depends on it.", "anchors": ["dsx/mapx/sklmapx/sklmapx.go: search, insert, delete"]}
{"id": "C122", "title": "Cost of a search", "statement": "After any history a search for k makes exactly as many comparisons of keys by < as there are records among the heights of the smaller keys (from the nearest) plus the largest height of the others; never more than the number of smaller keys plus 16.", "quantifier": "every history, every seed, every key", "why_tests_cant": "Cost is not a result.", "anchors": ["dsx/mapx/sklmapx/sklmapx.go: search"]}
{"id": "C123", "title": "Searches are logarithmic on average", "statement": "The number of comparisons of a search, on average over the tosses, is logarithmic in the number of keys.", "quantifier": "every number of keys below and above the key searched", "why_tests_cant": "An average over all outcomes, for maps of every size.", "anchors": ["dsx/mapx/sklmapx/sklmapx.go: search, rand_height"]}
{"id": "C124", "title": "Iterators, exactly", "statement": "A map and any number of iterators on it behave exactly as a specification that says, for every iterator, where it stands: before everything, on a present key, on a deleted entry with the deleted entries it will still show before it comes out, in a list thrown away by Clear, or at the end. Next panics exactly on an iterator that has gone past the end.", "quantifier": "every history of calls on the map and on any number of iterators, deletion of the key under an iterator, Clear and Next after the end included; every seed", "why_tests_cant": "What an iterator shows after deletions depends on the order of all deletions since it stopped.", "anchors": ["dsx/mapx/sklmapx/sklmapx.go: Iterator, Next, Seek, Rewind, Clear, Del"]}
{"id": "C125", "title": "Conversions between numbers and floats are correctly rounded", "statement": "An integer becomes the nearest value of float32 or float64, of two nearest ones the even one, and never an infinity; a float64 becomes the nearest float32, or an infinity exactly from half a step beyond the largest float32 on, with its sign kept; every result is a value of the type; a float becomes the integer it truncates to if that is a value of the integer type.", "quantifier": "every integer of the ten integer types, every float32 and float64, against every value of the result type", "why_tests_cant": "Nearest among all the values of the type; double rounding and overflow show only on few inputs.", "anchors": ["typex/convx/converters.go: integerToInteger, boolToFloat, stringToFloat", "typex/convx/init.go: init"]}
{"id": "C126", "title": "OrdMap.Range, exactly", "statement": "Programs that call the methods of an OrdMap and Range over it, with callbacks that do the same to any depth, make exactly the callback calls that a specification gives: each Range stands on a key, or on a deleted entry with the deleted entries it will still show; a deleted key is shown with the zero value; after Clear the keys thrown away and then a zero key are shown and Range panics. Without Clear nothing panics.", "quantifier": "every history, every program with nested Ranges, every callback, every seed", "why_tests_cant": "Callbacks that change the map while several Ranges are under way.", "anchors": ["dsx/mapx/ordmapx/ordmapx.go: Range, Set, Del, Clear"]}
{"id": "C127", "title": "Data races of a Sleeper", "statement": "Calls on one Sleeper from several goroutines do not race on its plain fields. (False: s.ctx is read by Sleep* and written by Wakeup with nothing in between, and two Wakeups race on s.cancel. Exactly: a race on s.ctx needs a Wakeup about to write it and a Sleep* that has set the flag but not read s.ctx, or a second Wakeup; a race on s.cancel needs two Wakeups.)", "quantifier": "every interleaving of any number of Sleep* and Wakeup calls", "why_tests_cant": "The race detector reports only races that the schedule it sees happens to make.", "anchors": ["timex/sleepx/sleepx.go: Sleeper, SleepFor, SleepUntil, SleepForever, Wakeup"]}
{"id": "C128", "title": "Data races of a TimedPool", "statement": "The fields of the workers and pool.stop, which are accessed without the mutex, are never accessed by two goroutines at once, one of them writing. (False with preheated workers: the goroutine of one that is collected before it has started reads w.ch while the collector, or a later Run, assigns it; and false for two Stop calls. Those are the only races: none without preheated workers, none on w.tt, none between Stop and the collector.)", "quantifier": "every interleaving of any number of Run and Stop calls, workers and the collector, every maxWorkers, preheat, clock", "why_tests_cant": "Needs a worker goroutine that has not run since the pool was made.", "anchors": ["poolx/gopoolx/timedpool.go: tworker, start, free, Run, Stop"]}
{"id": "C129", "title": "Decoupler from one goroutine, exactly", "statement": "Until slots have been tried 2^64 - 2 times, every history of Write and Next calls by one goroutine has the answers of a ring of slots: a Write of an empty message is dropped and changes nothing; another takes the first empty slot from its place on, or is dropped, with its place moved on, exactly if none is empty; Next takes the next slot if it is full, says false if all are empty, and hangs otherwise. So nothing is lost, made up or delivered twice, and Writes are dropped exactly while size messages wait, but after a drop messages can come out in another order.", "quantifier": "every size from 1 to 2^64 - 1, every history, drops included", "why_tests_cant": "What happens after a drop depends on which slots are empty then.", "anchors": ["iox/decouplex/decouple.go: NewDecoupler, Write, Next"]}
{"id": "C130", "title": "Liveness of a TimedPool", "statement": "In every infinite execution in which no goroutine is forgotten: every call of Run returns; if it returned true its value is handled exactly once and the handler ends, and if false it is never handled; Stop returns and stops the pool; the goroutines of a stopped pool end. (The last two are false in general: of two concurrent Stops one may hang, and a preheated worker collected before it started never ends. They hold if one goroutine calls Stop and if there are no preheated workers.)", "quantifier": "every fair infinite execution (weak fairness of callers, workers and collector, strong fairness of Stop), any number of calls, every maxWorkers, idle timeout and clock", "why_tests_cant": "An unbounded future; no test observes that something never happens.", "anchors": ["poolx/gopoolx/timedpool.go: tworker, start, free, Run, Stop"]}
{"id": "C131", "title": "Liveness of a Sleeper", "statement": "In every infinite execution in which no call is forgotten: every Wakeup returns; if time goes on, every SleepFor and SleepUntil returns; a Wakeup that returns true makes the sleeping call return, so if Wakeup is called again and again every sleep returns. (The last part is false in general: a Wakeup that comes before the sleeper has read the context is lost, and after two overlapping Wakeups a sleeper can be deaf for ever. It holds for a sleeper that is waiting when Wakeup is called, if Wakeups do not overlap.)", "quantifier": "every fair infinite execution, any number of goroutines, every duration and time", "why_tests_cant": "An unbounded future, and the orders in which the sleeper and several Wakeups interleave.", "anchors": ["timex/sleepx/sleepx.go: SleepFor, SleepUntil, SleepForever, Wakeup"]}
{"id": "C132", "title": "Liveness of CloseManager", "statement": "In every infinite execution in which no goroutine is forgotten and the mutex starves nobody, every Append and every Close returns, or panics because a closer did: every goroutine comes to the end of its code. (False if a closer calls the manager that is closing it: that call hangs and so does everybody who calls the manager afterwards. It holds for closers that do not.)", "quantifier": "every fair infinite execution, any number of goroutines, every program of Append and Close calls, every closer that does not call the manager", "why_tests_cant": "An unbounded future, and a mutex that is handed from goroutine to goroutine in any order.", "anchors": ["iox/managerx/closex/manager.go: Append, Close"]}
{"id": "C133", "title": "Liveness of HandleKillSig", "statement": "If the handler returns, after a signal the channel C is closed in every fair execution, and stays closed, and the handler has run; and every signal that arrives after the first was received crashes the process, by a second close of C.", "quantifier": "every infinite execution in which the goroutine is not forgotten, signals at any times", "why_tests_cant": "An unbounded future; the crash needs a second signal at the right time and kills the test.", "anchors": ["osx/closex/closex.go: HandleKillSig"]}
{"id": "C134", "title": "What Parameter.Match and PasswordHash.String do", "statement": "Match and MatchS call the handler of the parameter and no other, and nothing for an unknown parameter. String does not panic on any bytes; it says invalid exactly for the records that Vstruct_Validate rejects and otherwise shows parameter, salt and hash; two valid records with the same String have the same salt, hash and parameter. (The last for known parameters only: all unknown ones print as nothing.)", "quantifier": "every byte string shorter than 2^63, every parameter, all handlers", "why_tests_cant": "Injectivity over all pairs of records.", "anchors": ["cryptox/passhashx/internal/passhash.vstruct.go: Parameter.String, Match, MatchS, PasswordHash.String"]}
{"id": "C135", "title": "The text of a bcrypt hash", "statement": "Encrypt writes $2a$10$, the salt and the digest, 60 bytes; Decrypt accepts a text for a password exactly if it is a version not above 2, a cost from 4 to 31, a salt and the digest of the password with that cost and salt; the text is unique. (The last is false: the bytes after the version and the cost, the version itself and anything after the 60th byte may be changed.)", "quantifier": "all texts, passwords, salts and costs, every digest function of 23 bytes", "why_tests_cant": "Acceptance of arbitrary texts; tests use texts made by Encrypt.", "anchors": ["cryptox/bcryptx/bcryptx.go: Encrypt, Decrypt"]}
{"id": "C136", "title": "Liveness of Lazy", "statement": "If the first call of the constructor comes to an end, every call of Get does, in every infinite execution in which no goroutine is forgotten: it returns the value of that call, or, when that call panicked, panics or returns the zero value. If the first call does not come to an end, no call of Get ever does.", "quantifier": "every fair infinite execution (weak fairness is enough), any number of goroutines, every constructor", "why_tests_cant": "An unbounded future, and goroutines that queue for the mutex in any order.", "anchors": ["functionalx/lazyx/lazy.go: Get"]}
{"id": "C137", "title": "Liveness of Lock", "statement": "As long as callbacks come to an end and do not panic, whenever a goroutine waits in Lock some goroutine gets in, and every call of Lock returns. (The last is false: a goroutine can find the object taken each time it tries. It holds if from some time on no new calls come.)", "quantifier": "every fair infinite execution, any number of goroutines", "why_tests_cant": "Starvation is an infinite behaviour.", "anchors": ["syncx/lockx/lockx.go: Lock"]}
{"id": "C138", "title": "Lock and callbacks that write the object", "statement": "A callback may do with the object it is given what it likes. (False: the lock is the first word of the object. A callback that writes the address of the object there lets another callback in beside it; one that writes something else has no call ever return.)", "quantifier": "every interleaving of any number of goroutines, every value written", "why_tests_cant": "The callback that breaks the lock is the caller's, and what follows depends on the schedule.", "anchors": ["syncx/lockx/lockx.go: Lock"]}
{"id": "C139", "title": "syncmapx on the code of sync.RWMutex", "statement": "With the steps of sync.RWMutex's own code (counters, semaphores, the mutex between writers) in place of an abstract lock: whoever has the lock for writing has it alone, the int32 counters do not wrap and the throw branches are not reached, every history of syncmapx is linearizable with respect to a plain map and no two goroutines touch the Go map in a conflicting way.", "quantifier": "every interleaving of the single steps of any number of goroutines up to 2^30", "why_tests_cant": "The states in which a writer has announced itself while readers leave and others arrive last a few instructions.", "anchors": ["dsx/mapx/syncmapx/syncmapx.go: Get, Has, Size, Keys, Values, Set, Delete, Clear"]}
{"id": "C140", "title": "Every call of syncmapx returns", "statement": "In every infinite execution in which no goroutine that can go on again and again is forgotten, everybody who calls RLock or Lock gets the lock as long as everybody gives it back, and every call of syncmapx returns. With a lock that merely excludes it would be false: two readers that overlap keep a writer out.", "quantifier": "every strongly fair infinite execution, up to 2^30 goroutines", "why_tests_cant": "Starvation is an infinite behaviour.", "anchors": ["dsx/mapx/syncmapx/syncmapx.go: Get, Has, Size, Keys, Values, Set, Delete, Clear"]}
{"id": "C141", "title": "Truncate for every granularity", "statement": "time.div, with its long division over two 64-bit words, computes the remainder of the nanoseconds since year 1 for every time but the very first second; Time.Truncate gives the last multiple of d not after the time; truncatex.Truncate gives, for every granularity, the second of the last multiple of time.Second*n as Go computes it (with wrap-around), or the time itself when that is not positive; if that would be before the first second there is, it gives the second one, and in the first second itself, for a number of seconds that does not divide 2^63, a time that depends on how the remainder wraps.", "quantifier": "all times with nanoseconds, all d, all int64 sec and all n", "why_tests_cant": "The long division is only reached when time.Second*n wraps.", "anchors": ["timex/truncatex/truncatex.go: Truncate", "timex/timex.go: Custom"]}
{"id": "C142", "title": "Several readers of a Decoupler", "statement": "Any number of goroutines may call Next. (False: two at once show one message twice, lose one whose Write has said it is stored, leave the length at 2^64-1 so that the next Next waits for ever, and look at a buffer a writer copies into. One at a time, under a lock of their own, they do what one reader could have done.)", "quantifier": "every interleaving of any number of writers and readers, every size", "why_tests_cant": "The bad schedules need two readers between the same two instructions.", "anchors": ["iox/decouplex/decouple.go: Decoupler.Next"]}
{"id": "C143", "title": "Writers of a Decoupler do not wait for each other", "statement": "A Write finishes on its own in a bounded number of steps. (It does, after at most 3*size+3 steps, and stores its message if there is room, when nobody else is in the middle of a Write or of counting a message read. Otherwise it is false: a writer stopped between its CompareAndSwap and its store keeps the others going round, and a Write can try any number of times while everybody else gets on.)", "quantifier": "every reachable state, every size, every number of tries", "why_tests_cant": "Starvation needs an unlucky schedule at each of its tries.", "anchors": ["iox/decouplex/decouple.go: Decoupler.Write"]}
{"id": "C144", "title": "SkipListMap with any comparison", "statement": "Whatever < and == answer on the keys (floats with NaN, or nothing sensible at all), no call of a SkipListMap panics or loops; a Set changes the value of one entry equal to the key or adds one, where the entry before is smaller and the one after is not; a Del removes one entry equal to the key or none; Len, Keys, Values, String and ToMap agree. A Get just after a Set of the same key (equal to itself, not smaller) returns what was Set. NaN keys are added in front, never found, and removed by Clear only.", "quantifier": "all key types, all < and ==, all histories and seeds", "why_tests_cant": "The shape depends on random heights and the comparisons are arbitrary functions.", "anchors": ["dsx/mapx/sklmapx/sklmapx.go: search, insert, delete, Get, Set, Del, Keys, Values, String, ToMap, Len"]}
{"id": "C145", "title": "OrdMap with NaN keys", "statement": "Get is right, and Keys, Values and Len show exactly the present keys, whatever keys are used. (Get is, for any < and any == that is symmetric and transitive. The others are not: the Del of a key that a NaN hides in the index leaves it in Keys and Len with the zero value. No present key is missing, and Len is at least their number; NaN keys are listed once for each Set since the last Clear.)", "quantifier": "all key types with such an ==, all <, all histories and seeds", "why_tests_cant": "NaN among ordinary keys, and the order of the calls, decide which keys are hidden.", "anchors": ["dsx/mapx/ordmapx/ordmapx.go: Set, Del, Get, Len, Keys, Values, Clear"]}
{"id": "C146", "title": "The sorting procedures themselves", "statement": "SortFunc (pattern-defeating quicksort with its insertion sort, heap sort, partitions, partial insertion sort and shuffles) and SortStableFunc (insertion sort of blocks, then merges by rotation) return on every slice and every comparison, without an index out of range, with a permutation of the slice; it is in order if the comparison is a strict weak order, and the stable one keeps the order of equivalent elements, so that its result is determined. Sort, SortReverse, SortStable, SortStableReverse and Intersection therefore do what is stated of them with any sort.", "quantifier": "all element types, all comparisons, all slices, all random sources", "why_tests_cant": "Which of the sub-algorithms runs depends on the length, on patterns in the data and on random exchanges.", "anchors": ["algox/sortx/sortx.go: Sort, SortReverse, SortStable, SortStableReverse, SortCustom, SortStableCustom", "timex/intersectionx/intersectionx.go: iSlice, Intersection"]}
{"id": "C147", "title": "Sort keeps the order of equal elements", "statement": "Sort and SortCustom leave equivalent elements in the order they were in, and put floats in order. (Both are false: from 13 elements on the order of equivalent ones can change, and a NaN can leave the slice out of order. With at most 12 elements the result is that of the stable sort.)", "quantifier": "all comparisons, all slices of at most 12 elements for the positive part", "why_tests_cant": "Small slices, as in tests, are sorted by insertion, which is stable.", "anchors": ["algox/sortx/sortx.go: Sort, SortCustom"]}
{"id": "C148", "title": "aesx on AES and SHA-256 themselves", "statement": "With AES (S-box, ShiftRows, MixColumns, key expansion), SHA-256 and the GCM tag written out, decryption of a block undoes encryption for every key and every block and the other way round, SHA-256 gives 32 bytes and the tag has 16; so the round trips of the three modes, and everything proved of them under these assumptions, hold of the real functions.", "quantifier": "all keys, all blocks of 16 bytes, all data and passwords", "why_tests_cant": "2^256 keys and 2^128 blocks; tests compare a few vectors.", "anchors": ["cryptox/aesx/cbcx.go: EncryptCBC", "cryptox/aesx/cbcx.go: DecryptCBC", "cryptox/aesx/ctrx.go: EncryptCTR", "cryptox/aesx/ctrx.go: DecryptCTR", "cryptox/aesx/gcmx.go: EncryptGCM", "cryptox/aesx/gcmx.go: DecryptGCM"]}
{"id": "C149", "title": "What the tag of EncryptGCM protects", "statement": "Two different messages with the same nonce are both accepted by DecryptGCM only under passwords whose hash key (the encrypted zero block) is in a list of at most blocks + 1 numbers that the two messages determine. A change within one 16-byte block of the ciphertext, whatever it is, is refused under every password whose hash key is not 0.", "quantifier": "all nonces, ciphertexts, tags and passwords", "why_tests_cant": "It counts, among 2^128 hash keys, those that do not notice a change.", "anchors": ["cryptox/aesx/gcmx.go: DecryptGCM", "cryptox/aesx/gcmx.go: EncryptGCM"]}
{"id": "C150", "title": "Text to float64 is correctly rounded", "statement": "Converting a decimal or hexadecimal numeral to float64 gives the float64 nearest to the number it stands for, the even one of two, infinite from half a step above the largest; inf, infinity and nan are understood in any case. Everything else becomes 0 without a word, and underscores are dropped or make it 0. (Correct rounding is false of absurdly long texts with an exponent of 100000 or more, because the exponent stops growing while it is read; it holds for exponents below that and for texts up to 7000 bytes, 1700 in base sixteen.)", "quantifier": "all byte strings", "why_tests_cant": "Infinitely many texts; halfway cases need hundreds of digits.", "anchors": ["typex/convx/converters.go: stringToFloat"]}
{"id": "C151", "title": "Float to text is the shortest that reads back", "statement": "The text of a finite float64 has no exponent, no superfluous zero, reads back as the same float, has the fewest digits of all decimal numbers that do, and no number with as many digits is nearer. Zeroes, infinities and NaN have their own texts. Every float64 and every float32 survives the way through text and back.", "quantifier": "all floats", "why_tests_cant": "2^64 values, and for each of them all shorter numerals.", "anchors": ["typex/convx/converters.go: floatToString", "typex/convx/converters.go: stringToFloat"]}
{"id": "C152", "title": "The text of a float32 is the shortest that reads back as it", "statement": "The text of a float32 has the fewest digits that read back as this float32. (False: it is written as a float64, 0.1 as 0.10000000149011612. It reads back all the same.)", "quantifier": "all float32 values", "why_tests_cant": "Floats with a short binary expansion, as used in tests, do not show it.", "anchors": ["typex/convx/converters.go: floatToString"]}
{"id": "C153", "title": "The converters of a program and those of init.go", "statement": "Whatever a program registers and removes, also for interface types, Into, IntoOr and Exists answer for two types that are not interfaces with the converter the program registered last for that very pair, with none if it removed it later, and otherwise with the one of init.go. Built-in converters can be replaced and removed; nothing registered for another pair disturbs them.", "quantifier": "all histories of calls of convx, all pairs of types that are not interfaces, all values", "why_tests_cant": "A histories-times-pairs claim: 202 built-in pairs and any number of the program's own types.", "anchors": ["typex/convx/convx.go: Register", "typex/convx/convx.go: Unregister", "typex/convx/convx.go: Into", "typex/convx/convx.go: IntoOr", "typex/convx/convx.go: Exists", "typex/convx/init.go: init"]}
{"id": "C154", "title": "What test/main.go prints", "statement": "The program prints 123456, true, 5678, each of its random bytes as two hexadecimal digits, and true true, whatever the random bytes are.", "quantifier": "all contents of the buffer", "why_tests_cant": "The buffer is random: a test sees one of 2^256.", "anchors": ["test/main.go: main", "typex/convx/convx.go: Register", "typex/convx/convx.go: IntoOr"]}
{"id": "C155", "title": "Which integers survive a float, exactly", "statement": "An integer converted to float64 (float32) and back comes back the same if it has at most 53 (24) binary digits, not counting zeroes at the end. Every other one comes back as a different integer, the one the float stands for, unless that is just beyond the values of the integer type: then the language leaves the result open.", "quantifier": "all ten integer types, all their values, both float types", "why_tests_cant": "2^64 values, nearly all of which do not survive.", "anchors": ["typex/convx/converters.go: integerToInteger"]}
{"id": "C156", "title": "When text to float32 is right, exactly", "statement": "The float32 of a numeral is the one nearest to the number, the even one of two, except exactly in this case: the float64 nearest to the number is halfway between two float32 (or between the largest one and infinity), the number is not that float64 itself, and it lies on the side of the float32 that was not taken.", "quantifier": "all decimal and hexadecimal numerals (with exponents below 100000, or up to 7000 or 1700 bytes long)", "why_tests_cant": "The exceptions are one in many millions.", "anchors": ["typex/convx/converters.go: stringToFloat"]}
{"id": "C157", "title": "syncmapx with NaN keys, and every other comparable key type", "statement": "Whatever == does on the key type (it is symmetric and transitive; a NaN is not equal to itself, +0 equals -0), under every interleaving the map is a bag of entries, no two with equal keys, and each call acts on it at one moment: Set replaces the entry with an equal key, key included, or adds one; Delete removes it; Get and Has look for it. A key not equal to itself is never found, is not removed by Delete, and adds an entry with each Set; only Clear removes those.", "quantifier": "all key types with a symmetric and transitive ==, all interleavings of any number of goroutines", "why_tests_cant": "A map whose Size grows with every Set of the same key does not show with string or integer keys.", "anchors": ["dsx/mapx/syncmapx/syncmapx.go: Set", "dsx/mapx/syncmapx/syncmapx.go: Get", "dsx/mapx/syncmapx/syncmapx.go: Delete", "dsx/mapx/syncmapx/syncmapx.go: Clear"]}
{"id": "C158", "title": "A handler that ends its goroutine loses a worker for good", "statement": "If a handler of gopoolx ends its goroutine (runtime.Goexit), nothing else in the pool goes wrong: it goes through states it also goes through with handlers that return. But the worker is counted for ever, by Workers too and after Stop, and once as many are lost as the pool may have workers, every later Run returns false, at once and for ever.", "quantifier": "all pools, all interleavings, any number of handlers that end their goroutine", "why_tests_cant": "A leak that shows only after as many failures as there are workers.", "anchors": ["poolx/gopoolx/timedpool.go: tworker", "poolx/gopoolx/timedpool.go: Run"]}
{"id": "C159", "title": "A Slice for every int, exactly", "statement": "Through any history of method calls with any int arguments, MinInt64 and MaxInt64 included, the results, the panics and the elements are those of a list on which: Delete(MaxInt64) empties, Rotate(MinInt64) panics unless the length divides 2^63, Repeat panics when the length times the count, as an int64, is negative or too large. Split returns for any sizes what lies between each cut and the next, a cut being the one before plus the size, in int64, brought into the slice, and what is left after the last.", "quantifier": "all slices, all histories, all int arguments (while lengths fit an int)", "why_tests_cant": "Tests take small positive arguments.", "anchors": ["dsx/slicex/slicex.go: Delete, Rotate, Repeat, Split, Splice, DeleteReplace"]}
{"id": "C160", "title": "Intersection, exactly", "statement": "When no start, midpoint or end of the intervals coincides with one of another kind, Intersection of m >= 2 intervals returns the first and the last point that at least m-f of them contain, for the least f < m/2 for which there is such a point and at most f midpoints lie outside the two; it reports failure exactly when there is no such f.", "quantifier": "all lists of intervals without such ties whose ends fit an int64, every sorting order", "why_tests_cant": "The usual test checks three agreeing clocks.", "anchors": ["timex/intersectionx/intersectionx.go: intersection", "timex/intersectionx/intersectionx.go: Intersection"]}
{"id": "C161", "title": "Underscores in the text of a float, exactly", "statement": "If every underscore of a text comes after a digit (of the base) or after 0x, and before a digit, the float is that of the text without underscores. If one does not, the float is zero.", "quantifier": "all texts", "why_tests_cant": "A misplaced underscore gives zero, not an error.", "anchors": ["typex/convx/converters.go: stringToFloat"]}
{"id": "C162", "title": "The digest is that of FIPS 180-4", "statement": "The key of every aesx function is the SHA-256 of FIPS 180-4 of what is passed: the constants are the first 32 fractional bits of the roots of the first primes, the words of the schedule and of the rounds satisfy the recurrences of the standard bit by bit, the padding is the shortest. The relation determines the digest.", "quantifier": "all byte strings", "why_tests_cant": "Test vectors have few blocks; a wrong constant late in the table shows in all of them, a wrong padding only at some lengths.", "anchors": ["cryptox/aesx/cbcx.go: EncryptCBC", "cryptox/aesx/gcmx.go: EncryptGCM"]}
{"id": "C163", "title": "The block cipher is that of FIPS 197", "statement": "The block cipher of aesx takes every block to the one of FIPS 197, for keys of 16, 24 and 32 bytes: products modulo x^8+x^4+x^3+x+1, the S-box from the inverse in the field, the rows, the columns, the key schedule. The relation determines the block, and the decryption gives the only block that is taken to the given one.", "quantifier": "all keys of the three lengths, all blocks", "why_tests_cant": "Table-driven code can be wrong for one byte.", "anchors": ["cryptox/aesx/cbcx.go: EncryptCBC, DecryptCBC", "cryptox/aesx/ctrx.go: EncryptCTR"]}
{"id": "C164", "title": "aesx writes and reads what the standards say", "statement": "For every source of random bytes, EncryptCTR, EncryptCBC and EncryptGCM return exactly the bytes that SP 800-38A (CTR with a counter of 128 bits that wraps around; CBC) and SP 800-38D (GCM: GHASH over the polynomials modulo x^128+x^7+x^2+x+1, counters from 2, no additional data) prescribe for the SHA-256 of the key and the initial block drawn, written in front. The decrypting functions return data exactly for such an output, and then this data; DecryptGCM refuses every other input of 12 bytes or more.", "quantifier": "all keys, all data (for GCM up to its limit, for CBC full blocks), all random bytes, all inputs to the decrypting functions", "why_tests_cant": "A round trip through a wrong mode or a wrong GHASH succeeds just as well.", "anchors": ["cryptox/aesx/cbcx.go: EncryptCBC, DecryptCBC", "cryptox/aesx/ctrx.go: EncryptCTR, DecryptCTR", "cryptox/aesx/gcmx.go: EncryptGCM, DecryptGCM"]}
{"id": "C165", "title": "Sorting with any comparison", "statement": "Sort, SortCustom and SortStableCustom come back whenever the comparison does, whatever it answers (also differently from call to call), and leave a permutation of the slice; if they panic or hang, the comparison did, in its last call, on two elements of the slice, and the slice is still a permutation of what it was (not always the same one). With a comparison that only compares the outcome is that of C146 and C147.", "quantifier": "all slices, all functions from call number and two elements to an answer, a panic or no return", "why_tests_cant": "Tests use comparisons that are orderings and do not panic.", "anchors": ["algox/sortx/sortx.go: SortCustom, SortStableCustom"]}
{"id": "C166", "title": "How many comparisons a sort makes", "statement": "SortCustom makes at most n(341 + 316 log2 n) comparisons when the comparison is a strict weak ordering, and at most n + 11 when the slice is in order, which it leaves as it is; SortStableCustom at most n(24 + 4 log2 n) with any comparison; with any comparison SortCustom makes at most 13 n^2.", "quantifier": "all slices, all strict weak orderings (all comparisons for the stable sort)", "why_tests_cant": "Patterns that make quicksort quadratic are rare; tests time a few inputs.", "anchors": ["algox/sortx/sortx.go: SortCustom, SortStableCustom"]}
{"id": "C167", "title": "The critical sections of a TimedPool are atomic", "statement": "With every access to maxWorkers, workers and dobby a step of its own and all goroutines moving in between, exactly the holder of the mutex is inside a critical section, it can always go on and lets the mutex go after finitely many steps of its own, nothing panics, and what is seen from outside (calls, returns, beginnings and ends of handlers) is what the pool with whole critical sections does, and conversely. In particular every accepted job is handled once, the handlers never exceed the limit, no Run that has not passed its check succeeds after maxWorkers is -1, and Workers returns the number of live goroutines at that moment (which p.workers is not at every moment).", "quantifier": "all limits, preheats, clocks, idle timeouts and interleavings of any number of calls of Run, Stop and Workers with the goroutines and the collector", "why_tests_cant": "An unlock too early or an access outside the lock shows only when another goroutine runs between two particular instructions.", "anchors": ["poolx/gopoolx/timedpool.go: TimedPool.Run, free, tworker, start, Stop, Workers"]}
{"id": "C168", "title": "What a recovered panic leaves", "statement": "When a caller recovers a panic, the container goes on in a definite way, to any further panics: linkedx/stackx has lost the element that Pop panicked on and Len is right; linkedx/queuex likewise as long as its pool recycles no node (with a recycled node an element that was already dequeued is returned again); linkedx/listx keeps its elements but Len counts the failed Insert; a slicex/queuex Ring is unchanged and accepts n elements in its whole life; slicex/listx has appended the element of the failed Insert; a slicex.Slice is unchanged, except that a Filter whose callback panicked has moved the elements chosen so far to the front and changed no other; a BitSet has used the indices before the negative one; a Decoupler keeps the message on which view panicked and delivers it again to the next Next, in order, and a drop that panics changes nothing else.", "quantifier": "all histories of calls, any number of which panic and are recovered; all callbacks; any pool behaviour, capacity, width and growth oracle", "why_tests_cant": "What half a call leaves behind is seen only if the test goes on after the panic.", "anchors": ["dsx/linkedx/stackx/stackx.go: Pop", "dsx/linkedx/queuex/queuex.go: Enqueue, Dequeue", "dsx/linkedx/listx/listx.go: Insert", "dsx/slicex/queuex/queuex.go: Enqueue", "dsx/slicex/slicex.go: Slice.Filter, Slice.IndexOf, Slice.Contains, Slice.Each, Slice.ForEach", "dsx/slicex/listx/listx.go: Insert", "dsx/setx/bitsetx/bitsetx.go: Set, Clear, Toggle, Test", "iox/decouplex/decouple.go: Write, Next"]}
{"id": "C169", "title": "Types used without their constructor", "statement": "A variable of an exported type that was declared with var instead of made by New behaves in a definite way: slicex Stack and List, BitSet, CloseManager, Differ and Option are as good as new; a linkedx Queue and Deque and a Ring are empty for ever, and what should put something in panics (so does IsFull); a linkedx Stack and List are empty for ever, but Len counts the calls that panicked; a SkipListMap and its iterator have Len 0 and panic until Clear, and are those of New from then on; an OrdMap finds nothing, deletes nothing and panics otherwise, for ever, in Clear too; a syncmapx.Map is the Map of New except that a Set that gets the lock before any Clear panics with the lock held, after which no call takes effect; a TimedPool refuses every job, Stop returns, Workers is 0; a Sleeper answers false or panics, never true, and never stays asleep; a Decoupler panics at every Write and has nothing at every Next; a Lazy panics once and then gives the zero value; a Get of a syncpoolx.Pool hands out what was put, not more often than it was put, or panics.", "quantifier": "all histories of calls (panics recovered), all interleavings of any number of goroutines for Map, TimedPool, Sleeper and Lazy", "why_tests_cant": "The zero value compiles; which methods work on it differs from type to type and is not documented.", "anchors": ["dsx/mapx/sklmapx/sklmapx.go: SkipListMap, Iterator", "dsx/mapx/ordmapx/ordmapx.go: OrdMap", "dsx/mapx/syncmapx/syncmapx.go: Map", "dsx/linkedx/queuex/queuex.go: Queue", "dsx/linkedx/dequex/dequex.go: Deque", "dsx/linkedx/listx/listx.go: List", "dsx/linkedx/stackx/stackx.go: Stack", "dsx/slicex/queuex/queuex.go: Ring", "poolx/gopoolx/timedpool.go: TimedPool", "timex/sleepx/sleepx.go: Sleeper", "iox/decouplex/decouple.go: Decoupler", "functionalx/lazyx/lazy.go: Lazy"]}
{"id": "C170", "title": "A linkedx Deque as a stack or as a queue", "statement": "A Deque used from one end only is a stack that can be emptied and used again; a Deque filled at one end and emptied at the other is a queue that can be emptied and used again. (What holds: as a stack it is right for ever when the pool hands out new nodes only, and whatever the pool hands out for at most 64 elements at the back or one at the front; as a queue it is right until it is first emptied and empty for ever after, without a panic, when the pool hands out new nodes only or at most 64 elements went in before.)", "quantifier": "all histories of the calls of one end, or of the pushes of one end and the pops of the other, all choices of the node pool", "why_tests_cant": "A test with a few elements never recycles a node with neighbours.", "anchors": ["dsx/linkedx/dequex/dequex.go: Deque.PushFront, Deque.PushBack, Deque.PopFront, Deque.PopBack"]}
{"id": "C171", "title": "Messages are never torn", "statement": "With the slice headers and message bytes of the decoupler in memory, every access a step of its own and every schedule allowed, the decoupler does exactly what it does when messages are copied at one stroke: what a callback sees byte after byte is the message of one Write; nothing changes what a callback is looking at while it looks; no two goroutines use the same header word or byte at the same time with one of them writing; no byte outside an array is read or written. (Up to 2^64 - 2 increments of the write counter. A slice that a callback keeps is overwritten after Next returns, and may hold bytes of two messages.)", "quantifier": "all messages, sizes, schedules of any number of writers and one reader, capacities of new arrays and orders in which bytes are copied; callbacks that overwrite the bytes they have seen", "why_tests_cant": "Tearing needs a schedule that stops a goroutine in the middle of memmove.", "anchors": ["iox/decouplex/decouple.go: Decoupler.Write, Decoupler.Next"]}
{"id": "C172", "title": "autotidy and autoupdate survive a working directory that cannot be determined", "statement": "If os.Getwd or the return to the working directory fails, the tools still visit each directory, and they never panic.", "quantifier": "every file tree, every way in which the return to the start may fail", "why_tests_cant": "A test runs in a directory whose path is known and accessible.", "anchors": ["cmd/autotidy/autotidy.go: main", "cmd/autoupdate/autoupdate.go: main"]}
{"id": "C173", "title": "A Decoupler with room for all that is on its way", "statement": "As long as the Writes that have begun (at most 2^64 - 2 in all) are never more than size ahead of the Nexts that have returned a message, a Decoupler with any number of writers and one reader is a queue: no Write but of an empty message is dropped, none tries twice, each can finish on its own in six steps; messages are shown in the order in which the Writes drew their numbers, in particular that of a Write which returned before another began comes first; with fair goroutines every Next returns and every message is shown. (One message more on its way and the order can be lost. Even so Next can answer that there is nothing although a Write has returned whose message was not shown.)", "quantifier": "every schedule, any number of writers, every size from 1 on, every infinite execution that is fair", "why_tests_cant": "Order is lost only in schedules where a writer stops between drawing a number and storing.", "anchors": ["iox/decouplex/decouple.go: Decoupler.Write, Decoupler.Next"]}
{"id": "C174", "title": "Programs that use convx come to an end", "statement": "A program of finitely many goroutines that call Register, Unregister, Exists, Into and IntoOr, with converters that only compute (or panic), comes to its end under every scheduler, with every goroutine done: no execution goes on for ever, and none gets stuck. The same holds for converters that call Into and Exists themselves, from the moment on at which nothing is registered or unregistered any more, provided that each call would end if it were made alone.", "quantifier": "all programs of finitely many goroutines, all converters of these kinds, all interleavings, without a fairness assumption", "why_tests_cant": "Termination under every schedule is about all infinite executions; tests see finitely many finite ones, and the deadlock of convx needs a particular interleaving", "anchors": ["typex/convx/convx.go:Register", "typex/convx/convx.go:Unregister", "typex/convx/convx.go:Exists", "typex/convx/convx.go:Into"]}
{"id": "C175", "title": "Programs that use CloseManager come to an end", "statement": "In a program of finitely many goroutines that call Append and Close of a CloseManager no execution goes on for ever, whatever the closers do. An execution that cannot go on ends in one of two ways: every goroutine has come to the end of its code, or one goroutine hangs inside Close, in a closer that calls Append or Close of the manager it is in. If no closer does so, every execution, from wherever it has got to, comes to the end of all goroutines.", "quantifier": "all programs of finitely many goroutines, all closers (they may return, fail, panic or call the manager), all interleavings, without a fairness assumption", "why_tests_cant": "Termination under every schedule is about all infinite executions; tests see finitely many finite ones", "anchors": ["iox/managerx/closex/manager.go:Append", "iox/managerx/closex/manager.go:Close"]}
{"id": "C176", "title": "Calls of syncmapx come to an end under every scheduler", "statement": "While no new call is made, no execution of the calls under way goes on for ever, whichever goroutine the scheduler picks, and where none can go on all of them have returned: there is no deadlock, no livelock and no busy waiting. An execution that never stops makes new calls again and again.", "quantifier": "all reachable states of any number of goroutines (up to 2^30) with calls of all eight methods under way, at any place in the methods and in the code of sync.RWMutex; all interleavings; no fairness assumption", "why_tests_cant": "Termination under every schedule is about all infinite executions; tests see finitely many finite ones", "anchors": ["dsx/mapx/syncmapx/syncmapx.go:Get", "dsx/mapx/syncmapx/syncmapx.go:Keys", "dsx/mapx/syncmapx/syncmapx.go:Set", "dsx/mapx/syncmapx/syncmapx.go:Delete"]}
{"id": "C177", "title": "Callbacks that only compute and ordinary keys: no difference from the plain methods", "statement": "A callback of Filter, IndexOf, Contains, Each or ForEach (slicex), of Iterate (linkedx/listx) or of Write and Next (decouplex) that does not call the container and does not panic leaves the memory, the slice header, its own state and the result exactly as the method does with a pure function; and a syncmapx.Map whose keys are == exactly when they are the same satisfies the plain map specification.", "quantifier": "every memory, slice, list and decoupler state (well formed or not), every callback and every state of it, every key type with decidable equality", "why_tests_cant": "tests run a few callbacks on a few slices; the statement relates whole families of callbacks on all states", "anchors": ["dsx/slicex/slicex.go:Filter", "dsx/slicex/slicex.go:IndexOf", "dsx/slicex/slicex.go:Contains", "dsx/slicex/slicex.go:Each", "dsx/slicex/slicex.go:ForEach", "dsx/linkedx/listx/listx.go:Iterate", "iox/decouplex/decouple.go:Write", "iox/decouplex/decouple.go:Next", "dsx/mapx/syncmapx/syncmapx.go:Set"]}
{"id": "C178", "title": "Calls of Lazy.Get come to an end under every scheduler", "statement": "A goroutine makes at most eight steps in a call of Get, whatever the others do. While no new call is made no execution goes on for ever; where none can go on every call has returned or panicked, or the constructor does not return, one goroutine is in it and all other calls wait for that goroutine. An execution that never stops calls Get again and again: there is no busy waiting.", "quantifier": "all reachable states of any number of goroutines that call Get any number of times; constructors that return, panic or never return; all interleavings; no fairness assumption", "why_tests_cant": "Termination under every schedule is about all infinite executions; tests see finitely many finite ones", "anchors": ["functionalx/lazyx/lazy.go:Get", "functionalx/lazyx/lazy.go:New"]}
{"id": "C179", "title": "Run refuses a job only while maxWorkers jobs are under way", "statement": "While the pool is not stopped, Run returns false only when maxWorkers accepted jobs have not ended; otherwise it hands the job to the idle worker that came back last, or to a new one when none is idle. (What holds: it refuses exactly when the pool is stopped or no worker is on the idle list and maxWorkers workers exist; then each of these has a job of its own, or has just ended one and is not back on the list, or was taken off the list by the collector.)", "quantifier": "all reachable states of a pool with any maxWorkers > 0, any number of Run and Stop calls, workers and the collector, at any point, all interleavings; the second part without preheat", "why_tests_cant": "The refusal depends on where every worker and the collector are at the moment of the lock; tests see a few schedules", "anchors": ["poolx/gopoolx/timedpool.go:Run", "poolx/gopoolx/timedpool.go:free", "poolx/gopoolx/timedpool.go:start"]}
{"id": "C180", "title": "A pool that is not used gives back all its goroutines", "statement": "Once no call of Run is made any more, the pool comes to have no worker and no goroutine of a worker, without a call of Stop, as long as time goes on and the ticker ticks. (What holds: so for pools made without preheated workers; a preheated worker that is collected before its goroutine has begun never ends and counts against maxWorkers for ever.) Whatever the order of the idle list, a tick takes all idle workers if all have been idle for too long, and none if none has.", "quantifier": "all infinite fair executions of a pool with any maxWorkers > 0, idle time-out, and any calls of Run before; all lists of times for the tick", "why_tests_cant": "It is a liveness property over infinite executions, and the idle list is binary-searched although it need not be sorted; tests wait for one schedule", "anchors": ["poolx/gopoolx/timedpool.go:start", "poolx/gopoolx/timedpool.go:free", "poolx/gopoolx/timedpool.go:tworker"]}
{"id": "C181", "title": "A pool that refuses a job takes jobs again", "statement": "After every moment there comes another at which the pool is stopped or Run refuses no job for want of a worker, as long as handlers return and no goroutine is forgotten. (What holds: so for pools made without preheated workers. With at least maxWorkers preheated workers it is false: if the collector gets to them before they start, no call of Run is ever accepted, whatever happens.)", "quantifier": "all infinite fair executions of a pool with any maxWorkers > 0 and any callers of Run and Stop; for the negative part all maxWorkers, preheats of at least that many, and all continuations", "why_tests_cant": "It is a liveness property over infinite executions; the state in which a preheated pool is dead needs a worker goroutine that is scheduled late", "anchors": ["poolx/gopoolx/timedpool.go:Run", "poolx/gopoolx/timedpool.go:free", "poolx/gopoolx/timedpool.go:tworker", "poolx/gopoolx/timedpool.go:start"]}
{"id": "C182", "title": "Several handlers of signals", "statement": "When a signal comes, every handler registered with HandleKillSig before runs to its end, once, and its channel C is closed, whatever the other handlers do. (What holds: so if that signal is the only one, no logger is nil and handlers return. In every case no handler is begun more than twice nor more often than signals came, and it is said exactly what ends the process: with a second signal, a nil logger or a panic the process may end before another handler has begun; a handler that leaves by Goexit never has C closed.)", "quantifier": "all numbers of calls of HandleKillSig, all loggers and handlers, all signals, all interleavings; the liveness part: all infinite fair executions", "why_tests_cant": "What the process does depends on how the goroutine of os/signal and those of all handlers interleave; tests send one signal to one handler", "anchors": ["osx/closex/closex.go:HandleKillSig"]}
{"id": "C183", "title": "Containers let go of what is removed", "statement": "A container keeps no reference to an element that was removed from it, so that it can be collected. (What holds: so for SkipListMap, and for the values that Set overwrites and all that Clear removes. An Iterator that was rewound keeps the nodes that its last Seek passed; a Ring keeps every element it ever accepted; the slice stack keeps a popped element until it is overwritten.)", "quantifier": "all histories of a SkipListMap over any strict weak order, with what is reachable through any number of pointers; all rings and histories; all stacks", "why_tests_cant": "What is reachable in memory cannot be seen from the results of calls", "anchors": ["dsx/mapx/sklmapx/sklmapx.go: New, Set, Del, Clear, insert, delete, Height, Iterator.Seek, Iterator.Rewind", "dsx/slicex/queuex/queuex.go: Dequeue", "dsx/slicex/stackx/stackx.go: Pop"]}
{"id": "C184", "title": "poolDequeue, the queue under the pools, is a deque", "statement": "The lock-free ring under Go's sync.Pool (one owner pushes and pops at the head, any number of goroutines pop at the tail, head and tail are 32-bit numbers that wrap): whatever the interleaving, what its users see is what they would see of a list of at most n elements from whose ends elements are taken at one instant; nothing is returned more often than it was put in; nil is never returned; two users who are about to read or write the words of a slot are never at the same slot; a slot that is not empty holds an element of the list or somebody is at it. A push is refused only when the queue is full or an element that was taken has not yet been cleared.", "quantifier": "all interleavings of one owner and any number of takers, all sizes that divide 2^32, all starting points of the wrapping indices", "why_tests_cant": "Depends on interleavings of single memory accesses and on indices that wrap after four billion operations", "anchors": ["syncx/syncpoolx/syncpoolx.go: Init, Get, Put", "dsx/linkedx/queuex/queuex.go: New", "dsx/linkedx/listx/listx.go: New", "poolx/gopoolx/timedpool.go: TimedPool"]}
{"id": "C185", "title": "sync.Pool, under the pools of this code, is a bag that only the collector empties", "statement": "Go's sync.Pool with its per-P places, chains of poolDequeues, stealing, victim cache and collections, whatever the interleaving: what is seen is what is seen of a bag; when nobody is inside, the objects put are those got, those dropped by a collection and those that can still be got; a collection drops only what was put before the previous one (the first drops nothing); an object made once and put only by its holder is never handed out twice without a Put between. Every history is one of the pool of the documentation, which the other models use: the same calls return the same objects. One that is put twice is handed out twice.", "quantifier": "all interleavings of any number of goroutines on any number of Ps with the collector, all sizes of the dequeues", "why_tests_cant": "Depends on interleavings with the scheduler and the garbage collector", "anchors": ["syncx/syncpoolx/syncpoolx.go: Init, Get, Put", "dsx/linkedx/stackx/stackx.go: New", "dsx/linkedx/dequex/dequex.go: New", "poolx/gopoolx/timedpool.go: TimedPool"]}
{"id": "C186", "title": "sync.Mutex, as written, excludes and loses no wakeup", "statement": "Go's sync.Mutex with its fast path, spinning, woken bit, starvation mode and hand-off, used by closex.Manager, TimedPool, lazyx and inside RWMutex, under every interleaving: at most one goroutine has it; neither of the two consistency checks nor the unlock check ever aborts the program; the state word fits 32 bits, and is 0, with no token left in the semaphore, whenever nobody is in Lock or Unlock or has the mutex; while somebody is in Lock or Unlock and nobody has the mutex, somebody in Lock or Unlock can go on (no wakeup is lost). It is not handed out in the order of the calls.", "quantifier": "all interleavings of N goroutines (below 2^28 for the size of the word), every choice of who spins, who finds it has waited too long and whom the semaphore wakes", "why_tests_cant": "Depends on interleavings of single accesses to one word and on timing", "anchors": ["iox/managerx/closex/manager.go: CloseManager", "poolx/gopoolx/timedpool.go: TimedPool", "functionalx/lazyx/lazy.go: Lazy", "dsx/mapx/syncmapx/syncmapx.go: Map"]}
{"id": "C187", "title": "Without new calls sync.Mutex lets everybody through in a bounded number of steps", "statement": "From every state that N goroutines can bring a sync.Mutex into, if no new Lock is called and whoever has the mutex unlocks it, at most 6 (N+1) (2N+1) (3N+1) steps are left, and two more for each spin: no two goroutines can make each other try again for ever. As long as somebody is in Lock or Unlock or has the mutex, somebody can make a step that is not a spin; so it ends with all calls returned, the word 0 and the semaphore empty.", "quantifier": "all numbers of goroutines, all reachable states, all continuations without new calls", "why_tests_cant": "a livelock between failing CompareAndSwaps would need a schedule that a test does not produce, and the bound ranges over all of them", "anchors": ["iox/managerx/closex/manager.go: CloseManager", "poolx/gopoolx/timedpool.go: TimedPool", "functionalx/lazyx/lazy.go: Lazy", "dsx/mapx/syncmapx/syncmapx.go: Map"]}
{"id": "C188", "title": "The queue under sync.Pool is lock-free", "statement": "poolDequeue, from whatever state its words are in and with N goroutines in popTail beside the owner: if no call begins, at most (N+2)(3N+6) steps are left to all of them together, so that no CompareAndSwap fails for ever; and whoever is in a call can make its next step whatever the others do, so that nobody waits for a goroutine that is not running.", "quantifier": "all sizes of the queue, all numbers of goroutines, all states, all continuations in which no call begins", "why_tests_cant": "the schedules in which CompareAndSwaps fail are rare, and that they are bounded is a statement about all of them", "anchors": ["syncx/syncpoolx/syncpoolx.go: Init, Get, Put"]}
{"id": "C189", "title": "sync.RWMutex keeps its promises with the code of sync.Mutex inside it, and syncmapx on it too", "statement": "The RWMutex of syncmapx, with rw.w.Lock() and rw.w.Unlock() being the steps of sync/mutex.go in place of one atomic step each: every execution is, up to the steps of the mutex, one of the RWMutex in which w merely has an owner, and the owner is who has the mutex. So whoever has the lock for writing has it alone, the runtime never aborts, and when all calls have returned the counters, the word and the three semaphores are 0. While somebody is in a call, or has the lock, somebody of them can go on. Each history of SyncMap on that lock is linearizable, no two goroutines touch the map in conflict, and while somebody is in a call of the map somebody in a call can go on.", "quantifier": "all numbers of goroutines up to 2^30, all interleavings of the steps of map, RWMutex and Mutex, all key and value types", "why_tests_cant": "three layers of atomic steps interleave; that the lock may be thought of as one with an owner is a statement about all interleavings", "anchors": ["dsx/mapx/syncmapx/syncmapx.go: Map, Get, Has, Size, Keys, Values, Set, Delete, Clear"]}
{"id": "C190", "title": "lazyx, closex and gopoolx keep their promises with the code of sync.Mutex in place of a mutex with an owner", "statement": "With Lock and Unlock being the steps of sync/mutex.go in place of one atomic step each: every execution of Lazy.Get, of CloseManager's Append and Close, and of TimedPool with its critical sections step by step is, up to the steps of the mutex, one in which the mutex merely has an owner or none, and the owner is who has the mutex; the runtime never aborts. So the constructor runs at most once and all get its value; Close calls exactly what was appended before it, in order; and the pool does what the pool with whole critical sections does. Nothing is lost either: each execution with an owner is one with the mutex.", "quantifier": "all numbers of goroutines, all interleavings of the steps of the program and of the mutex, all constructors, closers and pool sizes", "why_tests_cant": "two layers of atomic steps interleave; that the mutex may be thought of as an owner is a statement about all interleavings", "anchors": ["functionalx/lazyx/lazy.go: Get", "iox/managerx/closex/manager.go: Append, Close", "poolx/gopoolx/timedpool.go: Run, free, tworker, start, Workers"]}
{"id": "C191", "title": "convx keeps its promises with the code of sync.RWMutex and sync.Mutex as its lock", "statement": "With RLock, RUnlock, Lock and Unlock being the steps of sync/rwmutex.go, each use of the lock inside of a converter being a user of its own, and with the steps of sync/mutex.go inside: every execution answers its calls as one with the simple lock of ConvConcModel does; nobody finds the maps half written; every call answers as if calls were made one at a time; while somebody is in Register or Unregister nobody else is in convx or in a converter. A converter that calls Register or Unregister never gets out of that call. Once a goroutine waits in Lock while another is inside of a converter that is about to call convx, and readerSem is 0, no call that has not got the lock ever gets it and the map never changes again; if readerSem is not 0, which is when an earlier writer has just released a reader that has not woken up, the inner call may take that reader's place and all may end.", "quantifier": "all programs of goroutines and converters, all nestings, all interleavings of the steps of convx, RWMutex and Mutex, up to 2^30 users of the lock", "why_tests_cant": "three layers of atomic steps interleave; the lucky escape needs a reader that is released but not yet awake", "anchors": ["typex/convx/convx.go: Register, Unregister, Exists, Into"]}
{"id": "C192", "title": "convx with converters that only compute never deadlocks in the code of its lock", "statement": "With the code of sync.RWMutex as the lock of convx, and with the code of sync.Mutex inside that: if every converter returns or panics without calling convx, then in every reachable state in which some goroutine is not done, some goroutine can take a step, and no step finds the maps half written. No wakeup of the semaphores is lost.", "quantifier": "all programs of goroutines, all converters that do not call convx, all interleavings of the steps of convx, RWMutex and Mutex, up to 2^30 users of the lock", "why_tests_cant": "a lost wakeup shows as a hang in a rare interleaving", "anchors": ["typex/convx/convx.go: Register, Unregister, Exists, Into"]}
{"id": "C193", "title": "convx comes to its end with the code of sync.RWMutex as its lock", "statement": "With the code of sync.RWMutex as the lock: finitely many goroutines, whose code ends whatever the lookups answer, make finitely many steps in any interleaving, the steps inside the RWMutex included, even if converters call convx. If converters only compute, the goroutines go on until all of them are done.", "quantifier": "all programs of goroutines and converters, all interleavings, up to 2^30 users of the lock", "why_tests_cant": "that no execution goes on for ever is not a statement about a finite run", "anchors": ["typex/convx/convx.go: Register, Unregister, Exists, Into"]}
{"id": "C194", "title": "With the code of sync.Mutex, a constructor or a closer that uses its own Lazy or manager waits for ever", "statement": "lazyx and closex with the code of sync.Mutex as their mutex: once a constructor is about to call Get of its own Lazy, that goroutine has the mutex for ever and never gets past the call, the constructor is not called again, and no Get of this Lazy returns or panics in any goroutine, whatever steps are made inside the mutex; if the first call of the constructor does so, no Get ever returns. Once a closer is about to call Append or Close of the manager that is closing it, that goroutine has the mutex for ever, nothing is appended or closed any more, and every goroutine at a call of the manager stays there.", "quantifier": "all constructors, closers and programs, all numbers of goroutines, all interleavings with the steps of the mutex, from every reachable state", "why_tests_cant": "that a call never returns cannot be observed; a test can only time out", "anchors": ["functionalx/lazyx/lazy.go: Get", "iox/managerx/closex/manager.go: Append, Close"]}
{"id": "C195", "title": "gopoolx keeps its promises with the code of sync.Mutex as pool.mu", "statement": "gopoolx with the code of sync.Mutex as pool.mu, step by step: what Run accepts is handled exactly once or waits in the channel of exactly one worker, and what it does not accept is never handled; a handler that has begun is over or runs in exactly one goroutine; never more handlers run at once than the larger of maxWorkers and preheat; neither Run nor the collector panics and the runtime does not abort in the mutex; what Workers answers is the number of goroutines that take jobs; and once the pool is marked as stopped, a Run that has not passed its check accepts nothing.", "quantifier": "all positive maxWorkers, all preheat, all programs of calls, all interleavings with the steps of the mutex", "why_tests_cant": "the interleavings inside the mutex cannot be forced by a test", "anchors": ["poolx/gopoolx/timedpool.go: start, Run, Stop, Workers, tworker, free"]}
{"id": "C196", "title": "Callbacks of Lock that call Lock", "statement": "Lock on any number of objects whose first word is their own address, by callbacks that call Lock themselves: an object is nil exactly while a callback on it runs, and no two callbacks on it run, be it in two goroutines or nested in one. If each goroutine of a set has panicked in a callback or calls Lock of an object that one of the set is inside of, none of them ever goes on and nobody ever enters an object they are inside of: so a callback that calls Lock of its own object waits for ever, and so can two goroutines that take two objects in opposite order. If all goroutines take the objects in one ascending order and do not panic, somebody can always go on until all are done, and then no object is taken. Apart from trying in vain a goroutine makes four steps for each Lock in its code; unless it panics it enters each object as often as its code says and gives it back as often, so that when it is done each callback has run exactly once.", "quantifier": "all programs of nested calls, any number of goroutines and objects, all interleavings", "why_tests_cant": "that goroutines wait for ever cannot be observed, and freedom from deadlock is about all interleavings", "anchors": ["syncx/lockx/lockx.go: Lock"]}
{"id": "C197", "title": "Lazies whose constructors use other Lazies", "statement": "Constructors may call Get of other Lazies. Whatever they do, each constructor is called at most once and only one goroutine is inside of it. If no code panics, every value that is kept, and every result a goroutine computes from Get, is what calling the constructors instead of Get evaluates to, whatever the interleaving. If each goroutine of a set needs a Lazy whose constructor one of the set is inside of, none of them ever comes out and no Get of these Lazies returns; in particular a circle of constructors hangs, also when two goroutines enter it at different places. If each constructor uses only Lazies below it, somebody can always make a step until all goroutines have come to their end, and the values are defined; without panics a goroutine makes no more steps than its code needs when each Get calls the constructor, and with finitely many goroutines every execution is bounded and ends with all of them having returned these values. A goroutine that panics inside of constructors only unwinds, and the Lazies it was constructing keep the zero value for ever.", "quantifier": "all constructors and programs that call Get of any Lazies, any number of Lazies and goroutines, all interleavings", "why_tests_cant": "that goroutines wait for ever cannot be observed, and freedom from deadlock is about all interleavings", "anchors": ["functionalx/lazyx/lazy.go: New, Lazy.Get"]}
{"id": "C198", "title": "CloseManagers inside of CloseManagers", "statement": "A CloseManager is an io.Closer, so it may be appended to another one. When Close of a manager returns it has called the closers below it in order, those of a manager inside where that manager stands in the list, once for each time it is appended; the errors inside of the error it returns are exactly those that the closers returned, in order. If none did, it still returns one (empty) error for each manager in its list, so that AsErrs is not empty. A closer that panics is the last one called, and Close of every manager around it panics. If no closer panics, Close returns exactly if there is no way down without end; with finitely many managers it waits for ever if somewhere below there is one that is below itself. usingx.Close with managers among its closers calls the closers below in order and returns nil exactly if none failed and none of them is a manager.", "quantifier": "all hierarchies of managers, all other closers that do not use the managers, all errors, calls from one goroutine that has no manager locked", "why_tests_cant": "all hierarchies; that Close waits for ever cannot be observed", "anchors": ["iox/managerx/closex/manager.go: CloseManager, Append, Close", "iox/managerx/closex/types.go: ErrorList, AsErrs", "iox/usingx/using.go: Close"]}
{"id": "C199", "title": "Goroutines that close managers inside of managers", "statement": "When several goroutines Append to and Close managers that contain each other, no manager is being closed by two goroutines at a time, nor twice by one. If each goroutine of a set is about to lock a manager that one of the set is closing, none of them ever makes a step again; two goroutines that close two managers which contain each other can get there. If each manager is only ever appended to managers above it in some order, somebody can always make a step until all goroutines have come to their end or panicked; with finitely many goroutines every execution is bounded, and ends there.", "quantifier": "all programs of Append and Close, any number of goroutines and managers, other closers that return or panic, all interleavings", "why_tests_cant": "that goroutines wait for ever cannot be observed, and freedom from deadlock is about all interleavings", "anchors": ["iox/managerx/closex/manager.go: CloseManager, Append, Close"]}
