# Formal model of hedzr/store in Rocq (Coq 8.16.1)

## 1. Layers

Models (executable Gallina, one definition per Go function, each with the file and lines it models)

| file | what it models |
|---|---|
| `GoStr.v` | Go strings as byte lists, `[]rune(s)` / `string([]rune)` (UTF-8), `strings.Split/Join/ReplaceAll/HasPrefix/Contains`, dynamic values `gval` |
| `Node.v` | `radix/node.go`, `radix/insert.go`: flags, `insertInternal`, `split`, `matchChildren`, `remove`, `extractor`, `matchR`, `walk`, `Dup` |
| `Trie.v` | `radix/trie.go`, view constructors of `radix/load.go`: every public method of the trie |
| `Cvter.v` | `radix/cvter.go`: `GetR/GetM/To`, `putKeys`, `splitCompactKeys`, typed getters, size strings |
| `Store.v` | `store.go`, `load.go`, `Merge` of `radix/load.go`: handlers, modified marks, loading, saving, change events, closers |
| `Loading.v` | the loading flag under concurrency, `load.go:21-29,91-93`, as an interleaving transition system |
| `Ttl.v` | TTL jobs, `radix/trie.go:71-257`, as a transition system over node identities |
| `Dur.v` | `internal/times/dur.go` |
| `Misc.v` | `op.go`, `internal/ctx/ctx.go`, `internal/cvt/cvt.go`, `internal/times/quote.go`, `codecs/gob`, `flattenHCL` |
| `Provider.v` | `providers/env`, `providers/flags`, key mapping and changes of `providers/consul` and `providers/etcd`, watch loop of `providers/file`, `providers/maps` |
| `Watch.v` | what joins providers and store: handlers and `Read` of `providers/consul` and `providers/etcd`, `Read` of env/flags/maps |
| `Save.v` | `Save`, `SaveAs` of loader and store, `load.go:51-73,546-640` |
| `FileWatch.v` | `Watch`, `watchRunner` and `Close` of `providers/file/file.go`: the goroutines and the flag they share |
| `RemoteWatch.v` | `Watch` and `Close` of `providers/etcd` and `providers/consul`: the goroutines, the channel, the plans |
| `FilePath.v` | which events `Watch` takes for events of its file; `filepath.Clean`/`Split`/`EvalSymlinks` and the event names of fsnotify after their documentation |
| `Files.v` | `providers/file/file.go`, `providers/fs/fs.go` (reading and writing) over a disk |
| `Codecs.v` | `codecs/hcl/hcl.go` (`Marshal`, `ctyValue`, `fill`), `codecs/hjson/hjson.go` (`UnmarshalEx`, `decode`) |
| `Text.v` | `radix/node.go` (`dump`, `dumpR`), `radix/trie.go` (`Dump`, `MarshalJSON`, `RecusiveMode.String`), `store.go` (`MarshalJSON`); `strconv.Quote` |
| `TtlRace.v` | `radix/trie.go`: the flag, the manager and the channel of `SetTTL`, `Close`, `dupS`, step by step, interleaved |
| `Locks.v` | `radix/node.go`: `lockFor`, `readLockFor` and their users, `TTL.Add`: the `sync.RWMutex` of a node, step by step, interleaved |
| `Heap.v` | `radix/node.go` again, as programs of single memory accesses: `insertInternal`, `split`, `insertAsLeaf`, `matchChildren`, `remove`, `Dup`, `walk`; nodes behind addresses, children in slices over arrays, interleaving |
| `HeapGet.v` | `radix/node.go`, `radix/trie.go`: `matchR`, `search`, `Query` on the tree in memory, access by access |
| `HeapRemove.v` | `radix/trie.go`: `RemoveEx` on the tree in memory, access by access |
| `HeapSee.v` | `radix/node.go`, `radix/trie.go`: `walk`, `Walk` on the tree in memory, with a callback that reads the node, access by access |
| `HeapExport.v` | `radix/cvter.go`: `GetR`, `GetM`, `To` on the tree in memory, access by access |
| `HeapWork.v` | goroutines as lists of calls (the programs of `HeapLin.v`, `Remove`, `Set` with the mark on the node it gives, `Update`, `SetNode`, `SetEmpty` and `Set` with methods of the node (`node.go:77-154`) write by write, `RemoveEx` with a read of the removed node, the exports of `HeapExport.v`), sections |
| `HeapCalls.v` | goroutines that call `Set` and `Remove` of the store (`store.go`) and the calls of `HeapWork.v` in sections of their own |
| `Torn.v` | accesses split into words: what an interface or a slice header read word by word can be |
| `MemSpec.v` | what it means to stay in memory; the calls of all the programs (`HeapCalls.v`, `HeapSee.v`, `HeapExport.v`, `p_dup`) |
| `HeapStore.v` | `store.go:246-260,329-375,392-401`: `Set` and `Remove` of a store handle as programs of single memory accesses; `radix/node.go:77-83`: `SetModified` |
| `Build.v` | `store.go:13-83,428-441`: `New` with its options, `Dup`/`Clone` of a store; `codecs/all/all.go`; `codecs/json/json.go`: `New`, `Marshal` |
| `Options.v` | `load.go:367-460`: `newLoader` with positions and codecs; the settings of all providers |
| `Dummy.v` | `dummy.go` |
| `Handles.v` | many handles on one store: the settings that `WithPrefix`, `WithPrefixReplaced`, `N`, `R`, `BR`, `Dup`, `SetPrefix`, `SetDelimiter` make and change; the same for a dummy store, whose `WithPrefix`, `WithPrefixReplaced`, `N`, `R` and `BR` return the receiver |
| `Family.v` | programs over many handles and copies of a store: views share the tree, `Dup` copies it, every call on the data goes through a handle with its settings of that time (TTL managers and the store's own flags are not in it) |
| `Session.v` | programs of store calls on one tree, each through a store with its view, loading flag, handlers and parents of that time; handlers do not call back |
| `HeapLin.v` | `Get`, `Has`, `HasPart`, `GetDesc`/`GetComment`/`GetTag`, `Set`, `SetEx`, `SetTag`, `SetComment`, `Update` on the tree in memory by goroutines that make many calls, with the calls and replies seen; the atomic specification |
| `Pools.v` | `radix/trie.go`, `store.go`: the pools of buffers and of match contexts, `UsePool`, `Join`, `join1`, `join`, `getMatchCtx`, `putBack`, by goroutines, access by access |
| `Getters.v` | integer getters with their Go conversions (`radix/cvter.go:755-999`), `internal/times/time.go` |
| `Ints.v` | `internal/times/integers.go` (integers), `strconv.ParseInt`, `strconv.FormatInt` |

The typed getters of `radix/cvter.go` (`GetX`, `MustGetX`, for scalars, slices and maps) were compared with one another by
script: within each of the six shapes they differ only in the name of the converter, the narrowing Go conversion, and
(slices) in returning the default by assignment. One model per shape therefore stands for all of them.

Specifications that mention none of the model's helpers: `Spec.v` (the trie as a finite map), `DurSpec.v` (what a
duration text denotes); smaller ones stand next to the proofs (`Nested.v`: paths in nested maps; `unquote` in
`CvtProofs.v`; the key-value world in `WatchProofs.v`).

Proofs: `Utf8.v`, `NodeWf.v`, `InsertProofs.v`, `MatchProofs.v`, `TreeOps.v`, `Refine.v`, `Climb.v`, `ApiRefine.v`,
`Reach.v`, `Effect.v`, `Derived*.v`, `Pattern.v`, `Route*.v`, `Dur*.v`, `Nested.v`, `CvterProofs.v`, `Export.v`, `SizeProofs.v`,
`StoreProofs.v`, `BuildProofs.v`, `HeapEnds.v`, `HeapStoreProofs.v`, `MergeProofs.v`, `MergeSlices.v`, `LoadProofs.v`, `TtlProofs.v`, `MiscProofs.v`, `CvtProofs.v`, `ProviderProofs.v`, `WatchProofs.v`, `Follow.v`, `SaveProofs.v`, `GetterProofs.v`, `FileProofs.v`, `CodecProofs.v`, `TextProofs.v`, `JsonProofs.v`, `HeapProofs.v`, `HeapWalk.v`, `HeapRace.v`, `HeapGetProofs.v`, `HeapRemoveProofs.v`, `HeapSeeProofs.v`, `HeapLinProofs.v`, `HeapOwn.v`, `NoId.v`, `HeapFair.v`, `HeapSect.v`, `HeapAsk.v`, `HeapCount.v`, `Size.v`, `Leak.v`, `Cost.v`, `CostSet.v`, `CostRemove.v`, `CostAll.v`, `Maze.v`, `MazeCost.v`, `SizeText.v`, `Aside.v`, `First.v`, `RouteFirst.v, Bind.v, RouteClash.v`, `RouteMany.v`, `RouteTree.v`, `WorkSpec.v`, `HeapWorkProofs.v`, `HeapCallsProofs.v`, `ExportIn.v`, `SizeLit.v`, `SizeUnits.v`, `KeyText.v`, `IntsProofs.v`, `Sections.v`, `Observer.v`, `Fragment.v`, `Layers.v`, `Merges.v`, `Order.v`, `Order2.v`, `Order3.v`, `Order4.v`, `HandlesProofs.v`, `FamilyProofs.v`, `ReadProofs.v`, `SessionProofs.v`, `SessionQuiet.v`, `TornProofs.v`, `TornRace.v`, `MemSafe.v`, `MemSafeProofs.v`, `FileWatchProofs.v`, `FilePathProofs.v`, `RemoteWatchProofs.v`, `HeapExportProofs.v`, `OptionsProofs.v`, `DummyProofs.v`, `HeapDup.v`, `PoolProofs.v`, `TtlLive.v`, `LockProofs.v`.
Concrete witnesses: `Refuted.v`; concrete stores that meet the hypotheses: `Samples.v`.

`Props*.v` hold only the property theorems, closed by `exact`, each followed by `Print Assumptions`, and beside them
`Example`s that show a non-trivial case meeting the hypotheses.

Model decisions that apply everywhere

* A Go call that can panic or loop returns `res A := Ok a | Panic | Fuel`.  `Panic` is an index/slice
  out of range, nil dereference or failed type assertion; `Fuel` means that the step bound handed to the function
  did not suffice.  Theorems hold for every positive bound, or say `converges` (all large enough bounds agree) or
  `diverges` (no bound suffices).
* A node carries an identity `nid` standing for its Go pointer.  `split` keeps the identity for the
  shortened (upper) node and allocates a new one for the lower part, as the code does.  Pointer comparisons
  (`remove`) and retained pointers (TTL jobs) compare identities.
* `T` is instantiated with `any` (the type used by `Store`); dynamic values are the type `gval`.
* Locks, logging (`logz.*`, `tip`) and the build-tag-disabled `assert` are not modelled.
* Go maps that are iterated are lists of pairs in *arbitrary* order; theorems quantify over the order.
* `float64` arithmetic of `ParseDuration` is `Coq.Floats.SpecFloat` (no axioms, no primitive floats).

## 2. How the properties are proved

"refuted" = the faithful model violates the full statement; the theorem `…_refuted` exhibits the witness, the other
theorems of the property prove the strongest true part found; C71-C93 state these parts as properties of their own.

* C01–C05, C08–C11, C57, C71–C75: invariant `wf` (non-empty fragments, siblings differ in the first rune, unique
  identities), abstraction to the list of (full path, attributes); `insertInternal` specified on the abstraction;
  `matchR` on pattern-free trees shown equal to a small descent function; simulation of `Spec.v` by induction over
  histories (`C00_refinement`).
* C05, C12, C13, C14: the same invariant plus the relation between fragments and stored full paths.
* C06: all operations return `Ok` under the invariant.  C07, C81: termination measure without a bare ':' node, and
  divergence for every bound with one.
* C15, C16, C53: laws on `Join` and on the operations of views.
* C17: `Dup` as tree copy with fresh identities.
* C18–C22, C58: per-method specifications on the abstraction.
* C23–C26, C59: symbolic evaluation of `matchR` on pattern nodes for arbitrary strings.
* C27: the climb as a list of candidates.
* C28–C31: exports as folds over the abstraction; order-independence over permutations.
* C32, C33: generic getter; size parser with explicit `mod 2^64`.
* C34–C36: formatter with explicit 32 byte buffer; parser with explicit `uint64` wrap; exactness of binary64 on the
  values that occur.
* C37–C45, C54, C55: store layer as state with an event log; loader as decision function over provider
  outcomes; the loading flag as an interleaving transition system.
* C46, C47: TTL transition system, invariants over all schedules.
* C48–C52, C56, C61–C70: direct models; the consul part by a simulation between the provider and a key-value store.
* C94: refinement of the tree to an abstract map over histories with removals; C95–C98: simulation between the store and the remote store, by composing C43, C54, C65, C66 and C94.
* C100, C101: export (C30) composed with loading (C43) around an abstract codec.
* C102–C106: the generic getter of C32 with two's complement truncation and the size parser of C33; first fit over a list of layouts.
* C107, C108: C100/C101 with the bytes kept in a file; C109–C112: induction over values and documents.
* C113, C114: lines of the dump = nodes with their depth; C115, C116: an independent reader of JSON strings and objects.
* C117 - C119: a memory holds a tree (separation: disjoint nodes, one owner for each array); each program refines the
  function of the tree model; a walk keeps the part of an array it has seen because Sets only write beyond it.
* C141 - C147: forward simulation from the threads in memory to the atomic tree; the effect of Get is its last read of
  the node, that of Set and SetTag its write, a bit that is set before is hidden by the relation; well-founded descent on the
  rest of a call for termination; C142, C144 - C147: all atomic explanations of one history are tried and fail.
* C150: a logic of programs that read the tree and own what they allocate; the memories of all goroutines are disjoint
  from the tree and from one another (an invariant of every access).
* C153: the same logic with sub-trees that are owned from the start; trees up to addresses; sub-trees that are apart are
  replaced independently (contexts with a hole).
* C176: C153's logic for whole jobs: a goroutine's own sub-tree is a memory of its own in which the refinements of Get, Has and
  Remove hold; calls on two sub-trees commute (`WorkSpec.v`, on the tree model).
* C177: `Set` and `Remove` of the store consist of items of C176; what the program of the items owns, the program of the calls owns
  (`like`), and the replies of the items determine what the handlers are told.
* C159, C160: the fold over the options as the last option of each kind; Load with options as the Load of C44.
* C122 - C124: invariants over schedules; a stuck sender stays stuck whatever happens.
* C120, C121: interleavings of programs; programs that only read the shape and overwrite values keep an invariant.

## 3. Trusted base

* the Coq 8.16.1 kernel (and `vm_compute`'s reduction machine);
* what `Print Assumptions` prints under every property theorem (section 5: nothing);
* the reading of the Go source recorded in the comments of the model files; nothing of the Go code was executed.

Parameters instead of models (theorems hold for every instance): `evendeep`'s clone (`C17`), conversions of
`internal/cvt` and `evendeep` in typed getters (`C32`), `strconv.ParseFloat` in size strings, `time.Parse` (`C106`), `fmt.Sprint` of map keys
(`C49`), `strings.ToLower/ToUpper` in the env provider (the refutations use the ASCII ones), codecs as decode/encode
functions with errors (`C44`, `C45`, `C63`), outcomes of provider calls.

Interleavings (C120, C121, C123, C124, C134 - C147, C150 - C158, C165 - C177, C181, C186, C187) are of atomic accesses to a field and sequentially consistent; the weak memory of
real machines is not modelled. Fields of more than one word are split into words in C180 (interfaces) and C181 (slices); strings are not.

Not modelled: garbage collection (but for objects dropped from a pool), third-party packages
(codec libraries, consul/etcd/fsnotify clients, `errors.v3`: `Attach(nil)` and `Defer` are taken to leave a nil error nil),
ANSI colouring (a parameter of `Dump`), `radix/stack.go` (used for dumps),
`providers/vault` (empty), command line examples.


## 4. Findings

Each entry is a theorem about the faithful model whose witness is a concrete history or a family of them.
The statement it refutes is in `properties.jsonl`; what does hold is in the note.

* **C01 A key that was just Set can be read back** — REFUTED as stated: C01_refuted (Set apple, Set app: Get(app) gives the value but found=false) and C01_refuted_empty. Positive part: C01_set_get gives for every reachable pattern-free store the value and the exact condition for found; C01_set_get_found: found=true whenever the key is not a proper prefix of a stored key. Theorems: `C01_refuted`, `C01_refuted_empty`.
* **C02 The store is a map from keys to the last written value** — REFUTED as stated: C02_refuted (Set "a." makes Get("a") return its value). Positive part: for every remove-free history the node under each key holds exactly the last value written; a query of a never-written key gives nil unless key+delimiter was written. Removal steps are covered by C10_remove_spec. Theorems: `C02_refuted`.
* **C07 Every lookup terminates, also when keys contain route patterns** — REFUTED: C07_refuted (routes /a/:id, /a/:name and /a/b: Get(/a/x/y) never returns); C07_bare_colon_calls says in general when a lookup runs forever. Positive part: every call returns unless a key k and the key k+':' are both nodes of the tree (C07_calls_converge). Theorems: `C07_refuted`.
* **C08 Has tells which paths exist** — REFUTED as stated: C08_refuted_prefix, C08_refuted_ancestor. Positive part: exact characterisation of Has for every pattern-free store, and Has is true for everything written. Theorems: `C08_refuted_ancestor`, `C08_refuted_prefix`.
* **C09 HasPart is prefix existence** — REFUTED on the empty store: C09_refuted. Positive part: exact for ASCII keys on non-empty stores. Theorems: `C09_refuted`.
* **C10 Remove deletes a key with its descendants and nothing else** — REFUTED as stated: C10_refuted (Remove(app) removes apple). Positive part: the exact effect of Remove on every key (C10_remove_spec); the stated effect when no stored key continues the path with a non-delimiter. Theorems: `C10_refuted`.
* **C11 Remove reports truthfully and leaves no trace** — REFUTED for the clause that a parent left without keys disappears: C11_refuted. Positive part: the returned flag agrees with Has before, and afterwards Has and Get do not find the path. Theorems: `C11_refuted`.
* **C12 A node's Key() is its full path** — REFUTED for branches of multi-byte keys: C12_refuted. Positive part: all nodes of ASCII stores, all leaves of valid UTF-8 stores. Theorems: `C12_refuted`.
* **C13 Different keys are different entries** — REFUTED for invalid UTF-8: C13_refuted. Positive part: valid UTF-8 strings without blanks. Theorems: `C13_refuted`.
* **C14 Keys with blanks** — REFUTED as stated: C14_refuted. Positive part: SetEx stores under the very string (C14_setex_get); Set without blanks is C01_set_get. Theorems: `C14_refuted`.
* **C16 Join puts exactly one delimiter between non-empty parts** — REFUTED for delimiters outside one byte: C16_refuted. Positive part: C16_join_*; splitting back needs an ASCII delimiter. Theorems: `C16_refuted`.
* **C17 Dup is an independent exact copy** — REFUTED for comment/description/tag: C17_refuted. Positive part: same keys, values (through the clone oracle) and flags; fresh nodes; writes through pointers of one tree never reach the other. Theorems: `C17_refuted`.
* **C18 SetComment and SetTag touch exactly the addressed key** — REFUTED as stated: C18_refuted. Positive part: exact effect when the path exists, no effect when nothing matches, never more than one key changed. Theorems: `C18_refuted`.
* **C19 SetNode stores all given fields** — REFUTED for the tag: C19_refuted. Positive part: exact attributes after SetNode. Theorems: `C19_refuted`.
* **C20 SetEmpty empties a node** — REFUTED for HasData: C20_refuted. Positive part: data and tag are nil, nothing else changes. Theorems: `C20_refuted`.
* **C21 Update keeps the value unless the callback changes it** — REFUTED when the callback does not store: C21_refuted. Positive part: the callback gets the old value once and the node afterwards is what the callback made of a node with nil data. Theorems: `C21_refuted`.
* **C22 SetEx calls its callback exactly once** — REFUTED: C22_refuted_none, C22_refuted_twice. Positive part: all calls get the path, old data and the node; exact condition for no call. Theorems: `C22_refuted_none`, `C22_refuted_twice`.
* **C23 Trailing route parameter** — REFUTED with a plain sibling sharing runes: C23_refuted. Positive part: found and bound whenever no stored key continues the prefix with the first rune of the segment; all prefixes, names and segments, beside any other routes with patterns that the path does not meet. Theorems: `C23_refuted`.
* **C24 Route parameter followed by more segments** — REFUTED: C24_refuted, C24_refuted_many. Positive part: exact length condition under which a route with a tail, or one of several routes under a parameter, is found, beside any other routes with patterns that the path does not meet. Theorems: `C24_refuted`, `C24_refuted_many`.
* **C25 Wildcard route** — REFUTED with a plain sibling: C25_refuted. Positive part: found and bound whenever no stored key continues the prefix with the first rune of the rest, beside any other routes with patterns that the path does not meet. Theorems: `C25_refuted`.
* **C26 GetEx delivers route parameters** — REFUTED: C26_refuted (the callback never gets bindings). Positive part: the value and branch flag passed are those of Query. Theorems: `C26_refuted`.
* **C27 Backward-recursive lookup finds the nearest owner** — REFUTED: C27_refuted_partial, C27_refuted_top. Positive part: which paths are tried and in which order, and that the first path with any match decides. Theorems: `C27_refuted_partial`, `C27_refuted_top`.
* **C28 GetR exports exactly the leaf keys and never panics** — REFUTED: C28_refuted (empty store panics), C28_refuted_prefix (a neighbour sharing a string prefix is included). Positive part: exact result for the root export and for every path, view and default list over stores of valid UTF-8, pattern-free keys (C28_root, C28_path, C28_present, C28_absent); no panic on a non-empty store (C28_no_panic). Theorems: `C28_refuted`, `C28_refuted_prefix`.
* **C29 GetM("") exports the store relative to the prefix** — REFUTED: C29_refuted (prefixed view: one byte too many is cut and outside keys appear), C29_refuted_panic. Positive part: C29_root gives the exact export without prefix or with the keep-prefix option, any filter; C29_prefix_partial states exactly what a prefixed view returns. Theorems: `C29_refuted`, `C29_refuted_panic`.
* **C30 GetM(path) exports the subtree relative to path** — REFUTED: C30_refuted (levels lost for paths of two and three segments), C30_refuted_panic (empty store). Positive part: C30_keep for any path with keep-prefix; C30_one for one-segment paths; C30_two for two-segment paths with one level below; C30_no_panic on non-empty stores. C30_any: where every value lands for a path of any number of segments (n segments of the path cost n-1 of the key's; too few: an empty one in front), which is the relative place only in the cases of C30_one and C30_two. Theorems: `C30_refuted`, `C30_refuted_panic`.
* **C31 Un-flattening keys is deterministic and lossless** — REFUTED: C31_refuted (order dependence with map values), C31_refuted_lossless. Positive part: for values that are no maps the result is given exactly (C31_exact), does not depend on the iteration order (C31_order), and is lossless iff no key lies above another (C31_lossless). Theorems: `C31_refuted`, `C31_refuted_lossless`.
* **C33 Size strings** — REFUTED: C33_refuted ("16EiB" gives 0), C33_refuted_hex, C33_refuted_panic (a no-break space before the unit panics; ASCII texts never do: C33_ascii). Positive part: exact outcome for every decimal number, blanks, unit letter in any case and iB/B tail (C33_kibi, C33_kilo, C33_kibi_bare, C33_kilo_bare), and it is the true size whenever that fits 64 bits (C33_fits). Fractional numbers go through an unspecified ParseFloat. Theorems: `C33_refuted`, `C33_refuted_hex`, `C33_refuted_panic`.
* **C34 Formatting a duration never panics** — REFUTED as stated: C34_refuted (MinInt64 without fractions needs 33 bytes and panics). Positive part: C34_format gives the exact text for every duration and says a panic happens iff the text exceeds 32 bytes; C34_total: never with the fractional form, for d >= 0, or for d above -100000 days. Theorems: `C34_refuted`.
* **C36 ParseDuration detects overflow** — REFUTED as stated: C36_refuted (two terms of 2^63 ns add up to 2^64, accepted as 0). Positive part: C36_exact: exact sum or rejection for all term lists that cannot hit that wrap-around, with fractions that are whole nanoseconds; C36_accepts_only: parsing always returns and accepts nothing but such texts (or a signed 0); C36_must, C36_must_only: the same for MustParseDuration, with zero for what is rejected. Finer fractions: C148, C149. Theorems: `C36_refuted`.
* **C37 Every user Set fires exactly one kind of handler** — REFUTED: C37_refuted (a new key that names a branch is reported as changed), C37_refuted_again (a fork set to nil is new each time). Positive part: the exact calls of every Set and Remove for all handler lists, parents, keys and values (C37_set, C37_remove), and the two expected cases (C37_new, C37_change), over stores of pattern-free keys and views without upward lookup. Theorems: `C37_refuted`, `C37_refuted_again`.
* **C38 Handlers also see merges, loads and prefixed views** — REFUTED: C38_refuted (the flag is true outside loading, the opposite of its name), C38_refuted_merge, C38_refuted_view. Proved instead, for all inputs: Merge and Sets through a WithPrefix view call no handler (C38_merge_silent, C38_view_silent); Load from Read or ReadBytes calls none (C44_read, C44_bytes). Theorems: `C38_refuted`, `C38_refuted_merge`, `C38_refuted_view`.
* **C40 Merge distributes a nested map over the tree** — REFUTED: C40_refuted (the prefix of the store is ignored). Positive part: exact result of Merge for all nested maps, positions, slice flattening and conversions of keys (C40_merge), reading back (C40_read), independence of the iteration order at all levels (C40_order). Theorems: `C40_refuted`.
* **C41 Trie-level Merge** — REFUTED: C41_refuted (nested keys lose their path), C41_refuted_slice (prefix twice), C41_refuted_nil (panic). Positive part: flat maps (C41_flat), maps of scalars nested (C41_nested), the exact result for every map with maps, slices of maps and slices (C41_exact: the key each value is written to, the panic for nil), and for which values that key is the right one (C41_right). Theorems: `C41_refuted`, `C41_refuted_nil`, `C41_refuted_slice`.
* **C42 Loading is mutually exclusive and always released** — Proved for any number of goroutines, any programs (nested calls, panics, recovers, views) and any schedule: at most one body per store handle, loading exactly while it runs, released at its end (C42_exclusive, C42_released, C42_done, C42_load). REFUTED beyond one handle: C42_refuted_views (two views of one tree load at once), C42_refuted_stuck (a view made while loading stays so), C42_refuted_seen (other goroutines' writes count as loading). Theorems: `C42_refuted_seen`, `C42_refuted_stuck`, `C42_refuted_views`.
* **C43 Loading keeps the metadata of the provider** — REFUTED: C43_refuted (description, comment and tag of the provider are dropped). Proved: a load leaves the metadata of every key as it was (C43_untouched_partial). Theorems: `C43_refuted`.
* **C44 Load picks the data source correctly and reports errors** — REFUTED: C44_refuted (a streaming provider without codec ends with the error of decoding no bytes). Positive part: Read (C44_read), ReadBytes with codec or JSON (C44_bytes), all error paths store nothing (C44_error, C44_once_error, C44_codec_error), exact outcome of streaming (C44_stream_partial). Theorems: `C44_refuted`.
* **C45 Save writes back without losing entries** — REFUTED: C45_refuted (entries that were not changed are not written back). Positive part: exactly the modified exported keys are written (C45_save; store without prefix), nothing without codec or provider (C45_nothing). Theorems: `C45_refuted`.
* **C46 An expiring TTL clears its own key only** — REFUTED as stated: a Set between SetTTL and expiry that splits the armed leaf makes the expiry remove both keys (C46_refuted_split); a branch armed through a prefixed view is not removed (C46_refuted_prefix); a branch armed on a Dup is removed from the original (C46_refuted_dup). Positive part, for every schedule: a leaf whose key is neither removed nor split in between is cleared and nothing else changes (C46_leaf), a branch of an unprefixed handle is removed with exactly its keys (C46_branch), a leaf that left the tree expires without effect (C46_gone), each job acts at most once (C46_once), no other step changes a tree (C46_quiet). Theorems: `C46_refuted_dup`, `C46_refuted_prefix`, `C46_refuted_split`.
* **C47 Close stops TTL jobs** — REFUTED as stated: Close of the store does not close the trie (C47_refuted_store), a timer that rang before trieS.Close still acts after it (C47_refuted_race, C47_refuted_select), views have managers that Close of the parent leaves running (C47_refuted_view). Positive part: after trieS.Close, in every later schedule, the closed manager gets no new job and no job that was waiting for its timer acts (C47_close). Theorems: `C47_refuted_race`, `C47_refuted_select`, `C47_refuted_store`, `C47_refuted_view`.
* **C48 Op names round-trip as text** — REFUTED (C48_refuted): MarshalText writes upper-case names that UnmarshalText does not know. Positive part: the lower-case of each written name reads back as the op (C48_lower), exactly the listed names are read (C48_parse), anything else is reported and changes nothing (C48_bad). Theorems: `C48_refuted`.
* **C49 Deflate/Normalize are deterministic** — REFUTED as stated: a key that leads through another key's value makes Deflate depend on the iteration order (C49_deflate_refuted, C49_deflate_map_refuted); Normalize leaves maps inside nested lists and lists of maps untouched (C49_normalize_slice_refuted, C49_normalize_maps_refuted); two keys that print the same depend on the order (C49_normalize_collision_refuted). Positive part: for keys of which none leads through another, Deflate's result by path and its independence of the order (C49_deflate, C49_deflate_order); Normalize by path, idempotence, no other map left outside these lists, independence of the order for keys that print differently. fmt.Sprintf("%v") is a parameter. Theorems: `C49_deflate_map_refuted`, `C49_deflate_refuted`, `C49_normalize_collision_refuted`, `C49_normalize_maps_refuted`, `C49_normalize_slice_refuted`.
* **C50 Environment keys are mapped to dotted keys** — REFUTED as stated: prepare panics if nothing is left of a name (C50_panic_refuted); Next is inverted: it never yields a key and panics at the end (C50_next_refuted, C50_next_panic_refuted); a strip prefix with capitals never matches the lowered name (C50_strip_refuted); two names with one key are counted twice (C50_count_refuted). Positive part: exactly which variables are taken, their keys, values and order, for any ToLower. Theorems: `C50_count_refuted`, `C50_next_panic_refuted`, `C50_next_refuted`, `C50_panic_refuted`, `C50_strip_refuted`.
* **C51 Context values iterate in sorted order exactly once** — REFUTED for mixed use: NextName and Next share the cursor (C51_shared_refuted), a key added during an iteration is not seen (C51_late_refuted), WithValues with an empty name shifts the pairs (C51_values_refuted). Positive part: after Reset, Next enumerates exactly the keys in ascending order, once, whatever came before (C51_next); entries (C51_entry), WithValues (C51_values), map order irrelevant (C51_order). Theorems: `C51_late_refuted`, `C51_shared_refuted`, `C51_values_refuted`.
* **C52 Store.RecursiveMode answers** — REFUTED (C52_refuted): Store.RecursiveMode calls itself and never returns. Positive part: the mode of the trie is the one picked last by N/R/BR through any chain of views (C52_trie). Theorems: `C52_refuted`.
* **C53 Changing the delimiter re-interprets but never loses data** — REFUTED for the found flag of branches: C53_refuted. Positive part: value and branch flag do not depend on the delimiter. Theorems: `C53_refuted`.
* **C54 External change events are applied** — REFUTED: C54_refuted (events of the file provider are not recognised). Positive part: exact effect of create, write and remove events and of the others (C54_set, C54_remove, C54_none). Theorems: `C54_refuted`.
* **C55 Close closes every watcher exactly once** — REFUTED: C55_refuted (loading with WithStorePrefix registers the watcher at a copy). Positive part: without a prefix Close calls all earlier closers and the new one exactly if data was loaded and watching is on (C55_close). Theorems: `C55_refuted`.
* **C57 The result does not depend on the insertion order** — REFUTED for the found flag: C57_refuted. Positive part: keys and values of the tree do not depend on the order. Theorems: `C57_refuted`.
* **C59 Routes match nothing else** — REFUTED: C59_refuted. Positive part: exact length condition for the false match. Theorems: `C59_refuted`.
* **C60 Walk(path) visits the subtree of the path** — REFUTED as stated (C60_refuted): Walk("path.") on a store whose only key below it is path.to visits the whole store, and a path without a trailing delimiter visits its parent's subtree. Positive part: exactly what is visited in every case where the lookup finds, partly finds or misses the path. Theorems: `C60_refuted`.
* **C62 HCL blocks are unwrapped** — By path and idempotence. C62_repeated_refuted shows the restriction to be needed: blocks inside repeated blocks stay wrapped. Theorems: `C62_repeated_refuted`.
* **C63 The gob codec round-trips** — REFUTED: Marshal returns the bytes before anything was written to the buffer (C63_marshal_refuted); a second Unmarshal continues with the reader of the first (C63_unmarshal_refuted). Positive part: the first Unmarshal decodes its argument (C63_first). Theorems: `C63_marshal_refuted`, `C63_unmarshal_refuted`.
* **C64 Keys of consul and etcd are mapped to store keys** — C64_glue_refuted and C64_collision_refuted show what happens for an empty delimiter and for segments that contain the delimiter. Theorems: `C64_collision_refuted`, `C64_glue_refuted`.
* **C67 Every write to a watched file is reported** — REFUTED: an equal event within 5 ms is swallowed (C67_swallow_refuted), after a removal nothing is reported any more (C67_removed_refuted). Positive part: for events apart, each write or creation of the file is one callback (C67_changes); an error is the last callback (C67_error_last). Theorems: `C67_removed_refuted`, `C67_swallow_refuted`.
* **C69 The flags provider offers the flags with the prefix** — REFUTED (C69_prefix_refuted): WithPrefix upper-cases the prefix, so no flag with a lower-case name is ever offered. Positive part: exactly what is offered for the prefix as stored (C69_prepare). Theorems: `C69_prefix_refuted`.
* **C70 No consul change is missed however events are batched** — REFUTED: of two transactions in one event only the last is seen (C70_coalesced_refuted), a removal between Read and the first event is not seen (C70_gap_refuted), the removal of a single watched key is not seen (C70_single_remove_refuted). What holds: C65. Theorems: `C70_coalesced_refuted`, `C70_gap_refuted`, `C70_single_remove_refuted`.
* **C95 A store that watches consul or etcd holds what the remote store holds** — REFUTED: deleting a/b also deletes a.bc from the store, for consul and etcd alike (removal is by prefix of characters). Positive part: C96 and C97, which are exact when no key begins with another. Theorems: `C95_consul_prefix_refuted`, `C95_etcd_prefix_refuted`.
* **C99 Reading one key of consul** — REFUTED: C99_missing_refuted: for a missing key the client gives a nil pair without an error and Read dereferences it; C99_missing: it does so for every missing key. Positive part: C99_one, a present key is returned. Theorems: `C99_missing_refuted`.
* **C100 SaveAs writes the store** — REFUTED: storeS.SaveAs writes nothing and returns nil; Loader.SaveAs loses a.b beside a, turns a..b into a.b and writes nothing for an emptied store. Positive part: errors of codec and provider are returned (C100_errors), and the round trip C101. Theorems: `C100_above_refuted`, `C100_emptied_refuted`, `C100_segment_refuted`, `C100_store_refuted`.
* **C102 Narrow integer getters answer the stored number or an error** — REFUTED: GetInt8 and GetUint8 of 300 answer 44 and no error. Positive part: C103. Theorems: `C102_refuted`.
* **C104 Sizes by key: default or error if there is no size** — REFUTED: a text that is no size gives 0 without an error and the default is not used. Positive part: C105. Theorems: `C104_refuted`.
* **C107 Load, change, Save, load again** — REFUTED: Save writes only the modified keys over the whole file, so keys that were loaded and not changed are gone. Positive part: C108. Theorems: `C107_refuted`.
* **C109 hcl: every value is written or an error reported** — REFUTED: a map[any]any is written as null without an error, nil elements of lists are dropped, a list of two kinds panics. Positive part: C110. Theorems: `C109_refuted`, `C109_refuted_dropped`, `C109_refuted_panic`.
* **C111 hjson: UnmarshalEx keeps every value** — REFUTED: {a: [1, 2]} becomes a with the single entry "" = 2. Positive part: C112. Theorems: `C111_refuted`.
* **C113 Dump shows every key and reports no wrong path** — REFUTED: data at the empty key is in no line of the dump; the branch 日 of 日本 and 日月 is shown with a garbled key and the mark WRONG. Positive part: C114. Theorems: `C113_refuted`, `C113_refuted_wrong`.
* **C115 MarshalJSON writes JSON** — REFUTED: the delimiter is written raw (backslash), strconv.Quote writes \a for BEL, and MarshalJSON of a trie lacks the braces of an object, so it never is JSON. Positive part: C116. Theorems: `C115_refuted`, `C115_refuted_prefix`, `C115_refuted_trie`.
* **C118 Keys may be removed while the tree is walked** — REFUTED (C118_refuted): with keys a, b, c the callback removes a when it sees a; remove shifts the children in place under the running loop, so b is never visited and c is visited twice.  Positive part: C119 (Sets instead of removals). Theorems: `C118_refuted`.
* **C120 Goroutines may set different keys at the same time** — REFUTED (C120_refuted): both goroutines read the children of the root, both append, the second assignment drops the key of the first; nothing locks the tree.  Positive part: C121 (keys that exist). Theorems: `C120_refuted`.
* **C123 SetTTL, Close and views may be used by several goroutines** — REFUTED (C123_refuted_nil, C123_refuted_view, C123_refuted_block): the flag is set before s.ttls, so a second SetTTL or a WithPrefix in between dereferences nil; a Close between the test of the flag and the send on the unbuffered channel leaves SetTTL blocked for ever.  Positive part: C124. Theorems: `C123_refuted_block`, `C123_refuted_nil`, `C123_refuted_view`.
* **C125 The lock of a node keeps readers and writers of its value apart** — REFUTED (C125_refuted_late, C125_refuted_twice): the lock is made by the first SetTTL without synchronisation, so a write under way goes on without it while another enters with it; two SetTTLs at once make two locks and whoever locked the first unlocks the second, a fatal error.  Positive part: C127. Theorems: `C125_refuted_late`, `C125_refuted_twice`.
* **C126 Dump returns while the store is in use** — REFUTED (C126_refuted): dumpR calls Data inside its own read lock; a writer (Get takes the write lock, too) that arrives in between blocks the second RLock and waits for the first: both block for ever.  Positive part: C127_goes_on without writers. Theorems: `C126_refuted`.
* **C129 Get of a key while another goroutine sets another key** — REFUTED (C129_refuted_miss, C129_refuted_panic, C129_refuted_nil): while Set of apricot splits the node of apple, Get of apple may report that there is no such key, index a path that has just been cut (a panic), or report the key with the value nil.  Positive part: C130 (keys that exist). Theorems: `C129_refuted_miss`, `C129_refuted_nil`, `C129_refuted_panic`.
* **C132 Get while another goroutine removes** — REFUTED (C132_refuted_miss, C132_refuted_value): while a is removed the loop over the children steps over b, which nobody removes, and Get of b reports that there is no such key; while apple is removed, Get of apple may give the value of app, because the number of children is tested before the loop reads them again.  Positive part: C133. Theorems: `C132_refuted_miss`, `C132_refuted_value`.
* **C134 Remove while others change the tree** — REFUTED (C134_refuted_shorter, C134_refuted_panic, C134_refuted_lost, C134_refuted_wrong, C134_refuted_set): apple removed by two goroutines may take app with it; a removal may panic (slice bounds); of a and c removed at the same time c may stay though both calls report success; of a and b removed b may stay and c, which nobody removes, go; a key set while another is removed may be lost.  Positive part: C133 (every entry left is an entry of the first tree). Theorems: `C134_refuted_lost`, `C134_refuted_panic`, `C134_refuted_set`, `C134_refuted_shorter`, `C134_refuted_wrong`.
* **C136 Walk while another goroutine sets a new key** — REFUTED: C136_refuted_twice (a key visited twice), C136_refuted_phantom (a key that never exists visited with the value of another, which is missed), C136_refuted_nil (a key visited without its value). Positive part: C135 (overwriting only), C119 (keys set by the callback itself). Theorems: `C136_refuted_nil`, `C136_refuted_phantom`, `C136_refuted_twice`.
* **C137 Walk while another goroutine removes a key** — REFUTED: C137_refuted_skips (a key nobody removes is missed, another visited twice). Positive part: C138. Theorems: `C137_refuted_skips`.
* **C142 Old values reported by concurrent setters** — REFUTED (C142_refuted): two SetEx of one existing key may both report the value that was there before; no order of the two explains that.  Positive part: C141 (without the reported values), all proved. Theorems: `C142_refuted`.
* **C144 Get beside Set of a new key** — REFUTED (C144_refuted): apple is there all the time, yet Get of apple beside Set of apricot replies that there is no such key; no order explains that.  Positive part: C141 (keys that exist). Theorems: `C144_refuted`.
* **C145 SetComment beside SetComment** — REFUTED (C145_refuted): of two concurrent SetComment of one key the description of one stays beside the comment of the other; no order of the calls explains what GetDesc and GetComment reply.  Positive part: C141 (SetTag, which writes one field, is linearizable). Theorems: `C145_refuted`.
* **C146 Concurrent updates of one key** — REFUTED (C146_refuted): Update first stores nil and keeps the old value, then calls back; a second Update in between gets nil as old value, and its effect or that of the first is lost.  The calls of SetData, which take the lock of the node if it has one, do not overlap in the witness.  Positive part: C141 and, for one goroutine, C21. Theorems: `C146_refuted`.
* **C147 Get beside Update** — REFUTED (C147_refuted): Update stores nil before it calls back, Get in between replies nil although the key has a value before and after.  Positive part: C141 (Set of a key that exists). Theorems: `C147_refuted`.
* **C149 Trailing zeros of a fraction do not matter** — REFUTED (C149_refuted): 0.500us is 500 ns, 0.50000000000000us (14 digits) is 499 ns, because 1000/1e14 is rounded down. Positive part: C148 (the difference is at most 2 ns), C36_exact (no difference while the unit is a multiple of the last place). Theorems: `C149_refuted`.
* **C151 Dup is a snapshot** — REFUTED (C151_refuted): one goroutine sets a, then b; the copy has the new b and the old a, which the tree never had. Positive part: C150 (every single value was there at some time). Theorems: `C151_refuted`.
* **C152 Dup beside new and removed keys** — REFUTED: beside the Set of apricot the copy has apple without its value (C152_refuted_nil), or the non-key ap with the value of apple and no apple (C152_refuted_phantom); beside the Remove of a the copy lacks b and has c twice (C152_refuted_twice), and in that copy c survives a Remove that reports success (C152_refuted_stays). Positive part: C150 (values are overwritten only), C152_before_after. Theorems: `C152_refuted_nil`, `C152_refuted_phantom`, `C152_refuted_stays`, `C152_refuted_twice`.
* **C154 Goroutines that set keys in new sections of their own** — REFUTED (C154_refuted): the store has server.port only; one goroutine sets client.id, the other db.url; both return and db.url is lost, since both append to the children of the root. Positive part: C153 (the sections exist before the goroutines start). Theorems: `C154_refuted`.
* **C156 An export is a snapshot** — REFUTED (C156_refuted): one goroutine sets a, then b; the map has the new b and the old a. Positive part: C155. Theorems: `C156_refuted`.
* **C157 A filtered export has only values that pass the filter** — REFUTED (C157_refuted): the filter looks at the node, then node.Data() is read again; the value may be overwritten in between. Positive part: C155; alone: C29, C30. Theorems: `C157_refuted`.
* **C158 Exports beside new and removed keys** — REFUTED (C158_refuted_phantom, C158_refuted_missing): while apricot is set, the map has ap and not apple; while a is removed, b is not in the map. Positive part: C155 for overwriting. Theorems: `C158_refuted_missing`, `C158_refuted_phantom`.
* **C159 What WithPosition does to a Load** — REFUTED (C159_refuted): the position of the loader is not used by Load; WithStorePrefix is what moves the data. What a position does instead: C163. Theorems: `C159_refuted`.
* **C160 The options of a Load are for that Load only** — REFUTED (C160_refuted: a second Load without a codec decodes with that of the first, not with json; C160_refuted_position: consul reads below the position of the first). What stays: C164. Theorems: `C160_refuted`, `C160_refuted_position`.
* **C161 GetPosition returns what WithPosition set** — REFUTED for env and flags (C161_refuted; C161_names: GetPosition gives the filter for names, WithPosition sets the prefix of keys, after the keys were made). Positive part: C161_round_trip for all others. Theorems: `C161_refuted`.
* **C162 A dummy store answers as an empty one** — REFUTED (C162_refuted, C162_getters, C162_meta): the typed getters ignore the defaults and give no error, GetDesc, GetTag and GetComment give no error; Has of the empty path, Locate, Walk and SetPrefix with empty parts differ. Positive part: C162_agrees, C162_agrees_paths, C162_prefix. Theorems: `C162_refuted`.
* **C166 A Clone of a store behaves as the store** — REFUTED (C166_refuted): the copy has no handlers. Positive part: all other settings are the same (C166_same); nothing done through a copy ever calls a handler or closes a watcher (C166_silent); the loading state is copied too, a copy made while the original loads never loads anything (C166_stuck). Theorems: `C166_refuted`.
* **C168 The codec of a file is found by its extension** — REFUTED (C168_refuted, and for every name with an extension C168_all): filepath.Ext includes the dot, the list has none. Positive part: without the dot every listed extension is found in every name (C168_found). Theorems: `C168_refuted`.
* **C169 New leaves the environment alone** — REFUTED (C169_refuted): New sets STORE_VERSION, which a provider without prefix then offers. Positive part: a provider with a prefix that STORE_VERSION does not begin with is not affected (C169_prefix). Theorems: `C169_refuted`.
* **C170 Pretty json** — REFUTED (C170_refuted): the indented text is dropped; pretty codecs write what the others write (C170_same). Positive part: C170_option: the last option decides whether the codec is made pretty, and it is by default. Theorems: `C170_refuted`.
* **C173 A new key is new only once** — REFUTED (C173_refuted): both goroutines take the key for new and call the on-new handlers. Positive part: C172 (keys that exist). Theorems: `C173_refuted`.
* **C174 Delete handlers tell what was removed** — REFUTED (C174_refuted): both Removes of a report a, and b, the next child, is gone without a call of a handler. Positive part: C171_remove (alone). Theorems: `C174_refuted`.
* **C175 A Set by a user leaves the key marked as modified** — REFUTED (C175_refuted): a Set within loading writes back a type without the mark. Positive part: C172_race (the mark is lost only where a loaded value is left; without loading never). Theorems: `C175_refuted`.
* **C178 GetM(path) through a handle with a prefix** — C178_any: exact place of every exported value; C178_rel: when it is the map relative to the path; C178_refuted: a handle with a prefix and one without give different maps for the same keys. Delimiters are ASCII (Join writes one byte). Theorems: `C178_refuted`.
* **C180 Values are two words: Get beside Set** — REFUTED for Sets that change the type of a value: C180_refuted (for every way to put two words together Get returns the old type word with the new data word; C180_refuted_ex: a number nobody stored). Positive part: C180_reduction (split accesses behave as whole ones while the type words do not change), C180_any, C180_key, C180_sets: Gets and overwriting Sets of values of one type per key. Theorems: `C180_refuted`.
* **C181 Memory safety of goroutines beside each other** — REFUTED when the words of a slice header are read one by one: C181_refuted (a Get is about to read past the end of the old array with the new length). Positive part: C181_memory, C181_start: with whole headers every access of every goroutine is inside its array and at a node or nil, for all calls that the model has programs for. Nil is the address 0; a new tree has its root there, so take a memory without a node at 0 to tell them apart. Theorems: `C181_refuted`.
* **C182 Watch and Close of the file provider** — REFUTED as stated: C182_refuted (a callback after Close; Close then Watch reports one change twice; after the end of the context, or the removal of the file, no later Watch reports anything; a Close before the goroutine runs is lost). Positive part: C182_calls, C182_delivered (each goroutine gives what file_loop of C67 gives for its messages), C182_one, C182_closed, and C182_dead in general. Theorems: `C182_refuted`.
* **C183 Events of the watched file** — REFUTED for links: C183_refuted (a path that is not clean and names a link; a link to a link; a link made anew, after which the old target is still watched and the new one is not). Positive part: C183_inside and C183_away say exactly which entries are taken, C183_file that for an entry that is no link these are the right ones however the path is written, C183_link that a clean path through one link works as long as the link stays. filepath and fsnotify are modelled after their documentation; C183_clean is what is used of Clean. Theorems: `C183_refuted`.
* **C184 Watch and Close of the etcd provider** — REFUTED as stated: C184_refuted (a change between Watch and the goroutine's first step is never reported; after Close what was in the channel is still reported, and then the goroutine takes the zero response of the closed channel without end, C184_spins in general). Positive part: C184_calls (calls and channel together are exactly what came while the goroutine listened), C184_delivered, C184_closed. The client is modelled after its documentation. Theorems: `C184_refuted`.
* **C185 Watch and Close of the consul provider** — REFUTED as stated: C185_refuted (two calls of Watch before their goroutines run: the first callback is never called, the second is called twice; Close after two calls of Watch leaves the first plan running). Positive part: C185_own (if each goroutine starts before the next Watch), C185_closed (the callback given last is not called after Close), C185_lost. The client is modelled after its documentation. Theorems: `C185_refuted`.
* **C189 A tree whose keys have all been removed is small again** — REFUTED: C189_refuted gives, for every n, a history that writes and removes two keys at a time after which no written key is there, every node left is an empty branch node, and there are more than n of them (Remove takes the node of the key, not the branch node above that it leaves without purpose). Positive part: C188, the nodes are bounded by the keys ever written. Theorems: `C189_refuted`.
* **C194 With patterns too a lookup costs no more the more keys there are** — REFUTED: C194_refuted has 64 keys whose six segments are either a name or a pattern; the lookup of a path that is not there searches every one of them (353 accesses, the bound is 334; C195 has the case for every depth). Positive part, for all trees and all paths: C194_query, no node is read by more than one descent for each path that is tried, so the cost is at most linear in the size of the tree; C194_hist, the same in the number and the length of the keys written; C194_remove, the same for Remove. Theorems: `C194_refuted`.
* **C195 With patterns the cost of a lookup is polynomial in the length of the path** — REFUTED for every polynomial: C195_refuted. C195_doubles has, for every n, the 2^(n+1) keys whose n+1 segments are either a name or a pattern (2n+3 runes each, out of four) and a path of 2n+3 runes that is not there; its lookup makes at least 2^n accesses, however the arrays grow. The upper bound is C194 (linear in the size of the tree); without patterns C193 (linear in the length of the path). Theorems: `C195_refuted`.
* **C199 A stored key is what its own path looks up, also with patterns** — REFUTED: C199_refuted: after "/u/:id" and then "/u/list" are set, Get("/u/list") is the value of "/u/:id", and Remove("/u/list") removes "/u/:id" and keeps "/u/list". Positive part: C197_set_get (no pattern is met) and C200_first_served (the key was there before the pattern); C201 has the case of the pattern that was there first in general. Theorems: `C199_refuted`.
* **C203 Only a ':' or '*' right after a delimiter is a pattern** — REFUTED: C203_refuted: "/u/:id" and "/u/:id*x" are stored; "/u/12/34" finds the value of "/u/:id*x", with x = "/34": after a parameter that ends a fragment the flag "last rune is a delimiter" stays set (radix/node.go, matchR: break masterLoop, then the loop over base.children), so that the '*' in the middle of the segment acts as a wildcard. Positive part: C202: names come only from keys that have a proper pattern, right after a delimiter, that the path meets. Theorems: `C203_refuted`.
* **C204 The bindings belong to the key that is found** — REFUTED: C204_refuted: "/a/:x/b" and "/a/list" are stored; "/a/list" is found with the binding x = "list" of the other key, and "/a/other" is not found but has a binding: the map is not cleared when a sibling fails. Positive part: C204_none: a path that meets no pattern is told no bindings; C202: what the bindings can be; C23-C25, C80, C201: exactly the bindings of the route if it is the only one the path meets. Theorems: `C204_refuted`.
* **C205 Routes with different parameters in the same place** — REFUTED: C205_refuted: "/user/:id" and "/user/:name" each answer for "/user/bob" when alone; with both stored "/user/bob" is not found: the tree splits the keys behind the ':', and the fragment that ends there has no name. Positive part: C205_clash: exactly what such a path finds: nothing, with the empty name bound (no common beginning of the names), or the node at which the names part, with the common beginning of the names bound (found only if that beginning is a route itself). With more segments such a lookup can run forever: C07. Theorems: `C205_refuted`.
* **C209 A path is not answered by a longer route** — REFUTED: C209_refuted: with the routes "/u/:id/posts" and "/u/:id/posts/all" the path "/u/1234/posts" is answered by "/u/:id/posts/all", and Remove of it removes that route. Positive part C209_over: the exact answer for such paths: not found if nothing extends the route, and otherwise answered by a key that extends it. Theorems: `C209_refuted`.
* **C210 Texts with other units are no sizes** — REFUTED: C210_refuted: "3ZiB" is taken for three bytes, "1Gk" for 1024. Positive part C210_kibi, C210_kilo: what is answered for a number with any run of the letters kmgtpezy: the number times the unit of the last letter, with z and y counting as one byte. Theorems: `C210_refuted`.
* **C214 Texts that are no integers give 0** — REFUTED: C214_refuted: "99999999999999999999 bottles" gives the largest number, "99 bottles" gives 0. Positive part: C213_int_error (an error leaves 0 or a bound). Theorems: `C214_refuted`.
* **C215 Typed getters report NotFound for a path never written** — REFUTED: C215_refuted: after app.dump.to and app.dump.from are written, GetT("app.dump") and GetT("app.dump.") answer the conversion of nil without an error and ignore the default, while GetT("path") with the one key path.to reports NotFound. Positive part: C216_unwritten says exactly when. Theorems: `C215_refuted`.
* **C218 The recursive mode is for lookups only** — REFUTED: C218_refuted: with app.level stored, Remove("app.x.y.level") through BR removes app.level, SetTag and SetComment change it; without BR they do nothing. Positive part: C219 says what they do. Theorems: `C218_refuted`.
* **C220 StartsWith tests the last path fragment by delimiter** — REFUTED: C220_refuted: with app.debug stored StartsWith("app.debug", 'd') is false and 'a' answers true; after app.dump is written 'a' answers false. Positive part: C221 says what is tested; EndsWith is as the comment says for keys. Theorems: `C220_refuted`.
* **C224 WithStoreFlattenSlice is for the Load it is given to** — REFUTED: C224_refuted: after a Load with WithStoreFlattenSlice(true) a later Load without it stores l.0 and l.1 instead of l; C224_refuted_again: loading the same sources once more changes the data. Positive part: C225 says which flag stays. Theorems: `C224_refuted`, `C224_refuted_again`.
* **C232 The order of Walk is a matter of the keys** — REFUTED: C232_refuted: for every two keys with different first runes the two orders of setting them give two orders of Walk. Positive part: C231 says which order it is. Theorems: `C232_refuted`.
* **C238 The same map gives the same order of Walk and text of Dump** — REFUTED (C238_refuted): the loops range over maps of Go, whose iteration order is not fixed: two iteration orders of one map with two keys give trees with the same data and marks but another order of Walk and another text of Dump (whatever the colouring and formatting functions are). Positive part: C237 says which order it is; C226 and C86: the data do not depend on it. Theorems: `C238_refuted`.
* **C240 The settings of a handle of a dummy store are its own** — REFUTED (C240_refuted): WithPrefix, WithPrefixReplaced, N, R and BR of a dummy store return the receiver, so SetPrefix through the view changes the prefix of the original. Positive part: C240_one: all handles of a dummy store always have one prefix, the one set last through any of them. Theorems: `C240_refuted`.

Further observations made while modelling (visible in the models, not each with a theorem of its own)

* Nested or concurrent `WithinLoading` calls are skipped silently (`C42_skipped`); the flag belongs to a handle, not to the tree.
* `WithStorePrefix` makes a copy of the store in the loading state which never leaves it (`C42_refuted_stuck`).
* `WithPosition` is recorded by `Load` but not used for where the data goes (C159, C163).
* `dupS` does not copy handlers, so views are silent (`C38_view_silent`).
* `TTL.Add` can wait forever if `Close` runs between its compare-and-swap and its send.
* The env provider's `Next` has its end test inverted (`C50_next_refuted`); a name that is all prefix panics.
* The etcd watch loop spins on a closed channel; the file watcher returns on `ctx.Done` without closing its watcher.
* consul's `Path()` asserts a `string` on a `[]byte` and panics; consul `Next` delivers `[]byte` where `Read` delivers `string`.
* `Watch` of the file provider keeps the flag set when its context ends or the file is removed, so that no later `Watch` of this provider reports anything; `Close` does not wait for the goroutine and does nothing when that has not started yet, and `Close` followed by `Watch` leaves two goroutines reporting (`C182_refuted`). Goroutines that end at the flag or with their context leave their fsnotify watcher open.
* The path resolved when `Watch` is called is kept for good: when a symbolic link is made anew, changes of the new target are not noticed, and a path that is not clean (`./link`) never notices its own link (`C183_refuted`).
* After `Close` the goroutine of etcd's `Watch` takes the zero value of the closed channel in an endless loop until its context ends, and changes made before it asked for its channel are missed (`C184_refuted`).
* The goroutine of consul's `Watch` reads `s.plan` when it runs: after two calls of `Watch` both may run the second plan; `Close` stops the plan made last only (`C185_refuted`).
* The file provider passes its change by value with `lastOp` never set, so file events are reported and never applied (`C54_refuted`).
* `MarshalEx` of the hjson codec writes nothing; `pretty` of the json codec discards its result; `Load` of the yaml codec decodes into a nil map; `UnmarshalEx` is not called by `Load`.
* Typed getters of a section whose keys part right behind the delimiter answer the conversion of nil without an error and ignore the default (`C215_refuted`); the comment of `ErrorIsNotFound` says otherwise.
* `Remove`, `SetTag` and `SetComment` through a recursive view (`BR`) change a key further up that the path does not name; the comment of `BR` speaks of lookups only (`C218_refuted`, `C219`).
* `StartsWith` of a trie tests the fragment of the node, not the last fragment of the path by the delimiter; writing another key changes its answer (`C220_refuted`, `C221`).
* `WithStoreFlattenSlice` of one Load stays on in the store: later Loads without the option flatten too, unless a `WithStorePrefix` came before it (`C224_refuted`, `C225`).
* The order of `Walk`, and so of `Dump` and of the exports, is the order in which sections got their first key, not an order of the keys: equal stores can be walked in different orders (`C232_refuted`, `C231`).
* `Merge` and `Load` range over Go maps, so the order of `Walk` and the text of `Dump` after loading the same file change from run to run, though the data are the same (`C238_refuted`, `C237`).
* `WithPrefix` of a dummy store returns the store itself: `SetPrefix` through the "view" changes the prefix of the original (`C240_refuted`, `C240_one`); the handles of a store each have their own (`C239`).

## 5. Assumptions per theorem

`Print Assumptions` prints "Closed under the global context" for every theorem named in `MANIFEST.json`: no axiom of
Coq's standard library is used, in particular no functional extensionality, no classical logic, no primitive
integers or floats.  The check tool lists seven constants `Coq.ssr.ssrunder.Under_rel.*` as library axioms; they belong
to a module type of the standard library that is loaded with `ssreflect` by `Lia`/`Zify` dependencies and occur in no proof here.

The development defines no axioms, parameters, functors or module types; section variables (`sprint`, `lower`, `clone`, …)
are generalised at the end of their sections and appear as universally quantified arguments of the theorems.

## 6. Properties and theorems

| property | status | theorems |
|---|---|---|
| C01 A key that was just Set can be read back | partial | C01_refuted, C01_refuted_empty, C01_set_get, C01_set_get_found |
| C02 The store is a map from keys to the last written value | partial | C02_last_write_query, C02_last_write_wins, C02_refuted |
| C03 Writing one key never disturbs another | proved | C03_set_frame, C03_set_frame_key, C03_write_frame |
| C04 Set reports the previous value | proved | C04_set_old |
| C05 Walk enumerates the stored keys exactly once | proved | C05_data_iff_stored, C05_data_step, C05_walk_once |
| C06 Operations on ordinary keys always terminate without a panic | proved | C06_no_panic, C06_no_panic_history |
| C07 Every lookup terminates, also when keys contain route patterns | partial | C07_bare_colon_calls, C07_calls_converge, C07_refuted |
| C08 Has tells which paths exist | partial | C08_has_after_set, C08_has_iff, C08_has_stored, C08_refuted_ancestor, C08_refuted_prefix |
| C09 HasPart is prefix existence | partial | C09_haspart_iff, C09_haspart_stored, C09_refuted |
| C10 Remove deletes a key with its descendants and nothing else | partial | C10_refuted, C10_remove_exact, C10_remove_spec |
| C11 Remove reports truthfully and leaves no trace | partial | C11_refuted, C11_remove_truthful |
| C12 A node's Key() is its full path | partial | C12_key_ascii, C12_key_leaf, C12_refuted |
| C13 Different keys are different entries | partial | C13_distinct_keys, C13_refuted |
| C14 Keys with blanks | partial | C14_refuted, C14_setex_get |
| C15 A prefixed view addresses prefix.key of the same data | proved | C15_view_nested, C15_view_path, C15_view_prefix, C15_view_step |
| C16 Join puts exactly one delimiter between non-empty parts | partial | C16_join_assoc, C16_join_singleton, C16_join_skip, C16_join_spec, C16_join_split_parts, C16_refuted |
| C17 Dup is an independent exact copy | partial | C17_dup_fresh, C17_dup_independent, C17_dup_keys, C17_dup_same, C17_refuted |
| C18 SetComment and SetTag touch exactly the addressed key | partial | C18_refuted, C18_setcomment_absent, C18_setcomment_one, C18_setcomment_present, C18_settag_present |
| C19 SetNode stores all given fields | partial | C19_refuted, C19_setnode_attr |
| C20 SetEmpty empties a node | partial | C20_refuted, C20_setempty_attr |
| C21 Update keeps the value unless the callback changes it | partial | C21_refuted, C21_update_attr, C21_update_value |
| C22 SetEx calls its callback exactly once | partial | C22_refuted_none, C22_refuted_twice, C22_setex_calls |
| C23 Trailing route parameter | partial | C23_param_found, C23_refuted |
| C24 Route parameter followed by more segments | partial | C24_param_routes_found, C24_param_tail_found, C24_refuted, C24_refuted_many |
| C25 Wildcard route | partial | C25_refuted, C25_wild_found |
| C26 GetEx delivers route parameters | partial | C26_getex, C26_refuted |
| C27 Backward-recursive lookup finds the nearest owner | partial | C27_br_candidates, C27_br_first, C27_br_nearest, C27_refuted_partial, C27_refuted_top |
| C28 GetR exports exactly the leaf keys and never panics | partial | C28_absent, C28_no_panic, C28_path, C28_present, C28_refuted, C28_refuted_prefix, C28_root |
| C29 GetM("") exports the store relative to the prefix | partial | C29_prefix_partial, C29_refuted, C29_refuted_panic, C29_root |
| C30 GetM(path) exports the subtree relative to path | partial | C30_any, C30_keep, C30_no_panic, C30_one, C30_refuted, C30_refuted_panic, C30_two |
| C31 Un-flattening keys is deterministic and lossless | partial | C31_exact, C31_lossless, C31_order, C31_refuted, C31_refuted_lossless, C31_section, C31_to |
| C32 Typed getters and defaults | proved | C32_absent, C32_after_set, C32_exact, C32_present, C32_slices |
| C33 Size strings | partial | C33_ascii, C33_fits, C33_kibi, C33_kibi_bare, C33_kilo, C33_kilo_bare, C33_refuted, C33_refuted_hex, C33_refuted_panic |
| C34 Formatting a duration never panics | partial | C34_format, C34_refuted, C34_total |
| C35 Duration text round trip | proved | C35_injective, C35_round_trip |
| C36 ParseDuration detects overflow | partial | C36_accepts_only, C36_exact, C36_must, C36_must_only, C36_refuted |
| C37 Every user Set fires exactly one kind of handler | partial | C37_change, C37_new, C37_refuted, C37_refuted_again, C37_remove, C37_set |
| C38 Handlers also see merges, loads and prefixed views | partial | C38_merge_silent, C38_refuted, C38_refuted_merge, C38_refuted_view, C38_view_silent |
| C39 Modified state | proved | C39_remove, C39_sets |
| C40 Merge distributes a nested map over the tree | partial | C40_merge, C40_order, C40_read, C40_refuted |
| C41 Trie-level Merge | partial | C41_exact, C41_flat, C41_nested, C41_refuted, C41_refuted_nil, C41_refuted_slice, C41_right |
| C42 Loading is mutually exclusive and always released | partial | C42_done, C42_entered, C42_exclusive, C42_load, C42_no_deadlock, C42_refuted_seen, C42_refuted_stuck, C42_refuted_views, C42_released, C42_skipped |
| C43 Loading keeps the metadata of the provider | partial | C43_refuted, C43_untouched_partial |
| C44 Load picks the data source correctly and reports errors | partial | C44_bytes, C44_codec_error, C44_error, C44_once_error, C44_options, C44_read, C44_refuted, C44_stream_partial |
| C45 Save writes back without losing entries | partial | C45_nothing, C45_refuted, C45_save |
| C46 An expiring TTL clears its own key only | partial | C46_branch, C46_gone, C46_inv, C46_inv0, C46_leaf, C46_no_renewal, C46_once, C46_quiet, C46_refuted_dup, C46_refuted_prefix, C46_refuted_split |
| C47 Close stops TTL jobs | partial | C47_close, C47_late, C47_refuted_race, C47_refuted_select, C47_refuted_store, C47_refuted_view |
| C48 Op names round-trip as text | partial | C48_bad, C48_lower, C48_parse, C48_refuted |
| C49 Deflate/Normalize are deterministic | partial | C49_deflate, C49_deflate_map_refuted, C49_deflate_order, C49_deflate_refuted, C49_normalize, C49_normalize_collision_refuted, C49_normalize_get, C49_normalize_idem, C49_normalize_maps_refuted, C49_normalize_order, C49_normalize_slice_refuted |
| C50 Environment keys are mapped to dotted keys | partial | C50_count_refuted, C50_dotted, C50_key_panics, C50_next_panic_refuted, C50_next_refuted, C50_panic_refuted, C50_parts, C50_plain, C50_prepare, C50_strip_refuted, C50_taken, C50_underlines |
| C51 Context values iterate in sorted order exactly once | partial | C51_entry, C51_entry_any, C51_fresh, C51_kept, C51_late_refuted, C51_next, C51_order, C51_shared_refuted, C51_values, C51_values_refuted |
| C52 Store.RecursiveMode answers | partial | C52_refuted, C52_trie |
| C53 Changing the delimiter re-interprets but never loses data | partial | C53_delimiter_irrelevant, C53_refuted |
| C54 External change events are applied | partial | C54_none, C54_refuted, C54_remove, C54_set |
| C55 Close closes every watcher exactly once | partial | C55_close, C55_prefix_partial, C55_refuted |
| C56 Node accessors agree with each other | proved | C56_accessors |
| C57 The result does not depend on the insertion order | partial | C57_keys_exact, C57_order_independent, C57_refuted |
| C58 Has, Search, Locate, Query and GetEx agree | proved | C58_agree_attrs, C58_agree_getex, C58_agree_has_search, C58_agree_locate, C58_agree_query_has |
| C59 Routes match nothing else | partial | C59_param_more_segments, C59_refuted |
| C60 Walk(path) visits the subtree of the path | partial | C60_refuted, C60_walk_nothing, C60_walk_parent, C60_walk_partial_all, C60_walk_subtree |
| C61 Quoted texts can be read back | proved | C61_inj, C61_quote |
| C62 HCL blocks are unwrapped | proved | C62_get, C62_idem, C62_keeps, C62_repeated_refuted, C62_single |
| C63 The gob codec round-trips | partial | C63_first, C63_marshal_refuted, C63_unmarshal_refuted |
| C64 Keys of consul and etcd are mapped to store keys | proved | C64_collision_refuted, C64_glue_refuted, C64_inj, C64_key, C64_strip |
| C65 Consul changes are followed | proved | C65_event, C65_first, C65_follows, C65_history, C65_single |
| C66 Etcd events are classified and delivered once | proved | C66_once, C66_op |
| C67 Every write to a watched file is reported | partial | C67_changes, C67_error_last, C67_removed_refuted, C67_swallow_refuted |
| C68 The map provider offers the given values at dotted paths | proved | C68_maps, C68_plain |
| C69 The flags provider offers the flags with the prefix | partial | C69_prefix_refuted, C69_prepare |
| C70 No consul change is missed however events are batched | partial | C70_coalesced_refuted, C70_gap_refuted, C70_single_remove_refuted |
| C71 The trie behaves as a finite map with branch points | proved | C00_refinement |
| C72 What Get returns after Set | proved | C01_set_get, C01_set_get_found, C14_setex_get |
| C73 The node of a key holds the last value written | proved | C02_last_write_query, C02_last_write_wins, C05_data_iff_stored, C57_keys_exact, C57_order_independent |
| C74 What Has and HasPart answer | proved | C08_has_after_set, C08_has_iff, C08_has_stored, C09_haspart_iff, C09_haspart_stored |
| C75 What Remove removes | proved | C10_remove_exact, C10_remove_spec, C11_remove_truthful |
| C76 Keys reported by nodes | proved | C12_key_ascii, C12_key_leaf, C13_distinct_keys |
| C77 Join of path segments | proved | C16_join_assoc, C16_join_singleton, C16_join_skip, C16_join_spec, C16_join_split_parts |
| C78 A Dup has the same keys and data and shares no node | proved | C17_dup_fresh, C17_dup_independent, C17_dup_keys, C17_dup_same |
| C79 What the attribute setters do | proved | C18_setcomment_absent, C18_setcomment_one, C18_setcomment_present, C18_settag_present, C19_setnode_attr, C20_setempty_attr, C21_update_attr, C21_update_value, C22_setex_calls |
| C80 Which routes are found | proved | C23_param_found, C24_param_routes_found, C24_param_tail_found, C25_wild_found, C59_param_more_segments |
| C81 When lookups return | proved | C07_bare_colon_calls, C07_calls_converge |
| C82 What GetR, GetM and To return | proved | C28_absent, C28_no_panic, C28_path, C28_present, C28_root, C29_root, C30_any, C30_keep, C30_no_panic, C30_one, C30_two, C31_exact, C31_lossless, C31_order, C31_section, C31_to |
| C83 What size strings mean | proved | C33_ascii, C33_fits, C33_kibi, C33_kibi_bare, C33_kilo, C33_kilo_bare |
| C84 What formatting and parsing of durations do | proved | C34_format, C34_total, C36_accepts_only, C36_exact |
| C85 Which handlers are called | proved | C37_change, C37_new, C37_remove, C37_set, C38_merge_silent, C38_view_silent |
| C86 What Merge stores | proved | C40_merge, C40_order, C40_read, C41_flat |
| C87 One loader at a time per store handle | proved | C42_done, C42_entered, C42_exclusive, C42_load, C42_no_deadlock, C42_released, C42_skipped |
| C88 What Load, Save, watching and Close do | proved | C44_bytes, C44_codec_error, C44_error, C44_once_error, C44_read, C45_nothing, C45_save, C54_none, C54_remove, C54_set, C55_close |
| C89 What TTL jobs do | proved | C46_branch, C46_gone, C46_inv, C46_inv0, C46_leaf, C46_no_renewal, C46_once, C46_quiet, C47_close |
| C90 Which nodes Walk visits | proved | C05_walk_once, C60_walk_nothing, C60_walk_parent, C60_walk_partial_all, C60_walk_subtree |
| C91 Which environment variables are offered, as which keys | proved | C50_dotted, C50_key_panics, C50_parts, C50_plain, C50_prepare, C50_taken, C50_underlines |
| C92 Iterating a context | proved | C51_entry, C51_kept, C51_next, C51_order, C51_values |
| C93 What Deflate and Normalize return | proved | C49_deflate, C49_deflate_order, C49_normalize, C49_normalize_get, C49_normalize_idem, C49_normalize_order |
| C94 A store is the map of its history | proved | C94_history, C94_last_op, C94_read |
| C95 A store that watches consul or etcd holds what the remote store holds | partial | C95_consul_prefix_refuted, C95_etcd_prefix_refuted |
| C96 Following consul, when no key begins with another | proved | C96_load_follow, C96_read, C96_step |
| C97 Following etcd, when no key begins with another | proved | C97_history, C97_load_follow, C97_read |
| C98 The environment reaches the store | proved | C98_env, C98_named |
| C99 Reading one key of consul | partial | C99_missing, C99_missing_refuted, C99_one |
| C100 SaveAs writes the store | partial | C100_above_refuted, C100_emptied_refuted, C100_errors, C100_segment_refuted, C100_store_refuted |
| C101 Save and load round trip | proved | C101_codec, C101_roundtrip |
| C102 Narrow integer getters answer the stored number or an error | partial | C102_refuted |
| C103 What integer getters answer | proved | C103_signed, C103_unsigned |
| C104 Sizes by key: default or error if there is no size | partial | C104_refuted |
| C105 What size getters answer | proved | C105_absent, C105_exact, C105_kibi, C105_kilo, C105_must, C105_present |
| C106 SmartParseTime uses the first layout that fits | proved | C106_added, C106_first, C106_must |
| C107 Load, change, Save, load again | partial | C107_refuted |
| C108 What files hold | proved | C108_disabled, C108_missing, C108_refused, C108_save, C108_saveas, C108_saveas_refused, C108_unencodable |
| C109 hcl: every value is written or an error reported | partial | C109_refuted, C109_refuted_dropped, C109_refuted_panic |
| C110 What hcl Marshal writes | proved | C110_keys, C110_list, C110_null, C110_written |
| C111 hjson: UnmarshalEx keeps every value | partial | C111_refuted |
| C112 What hjson UnmarshalEx has at every path | proved | C112_array, C112_decoded |
| C113 Dump shows every key and reports no wrong path | partial | C113_refuted, C113_refuted_wrong |
| C114 What Dump shows | proved | C114_ascii, C114_column, C114_leaf, C114_lines, C114_right |
| C115 MarshalJSON writes JSON | partial | C115_refuted, C115_refuted_prefix, C115_refuted_trie |
| C116 When MarshalJSON writes JSON, and which | proved | C116_ascii, C116_ascii_iff, C116_json |
| C117 The tree behind pointers and slices is the tree of the model | proved | C117_apart, C117_attr, C117_comment, C117_data, C117_dup, C117_empty, C117_new, C117_own, C117_remove, C117_set, C117_sets, C117_tag, C117_walk |
| C118 Keys may be removed while the tree is walked | partial | C118_refuted |
| C119 Keys may be set while the tree is walked | proved | C119_any, C119_walk |
| C120 Goroutines may set different keys at the same time | partial | C120_refuted |
| C121 Goroutines that overwrite keys that exist | proved | C121_ends, C121_overwrite |
| C122 SetTTL arms one timer and returns | proved | C122_arms, C122_expires, C122_served, C122_served0 |
| C123 SetTTL, Close and views may be used by several goroutines | partial | C123_refuted_block, C123_refuted_nil, C123_refuted_view |
| C124 SetTTL from several goroutines once one call has returned | proved | C124_alive, C124_steady |
| C125 The lock of a node keeps readers and writers of its value apart | partial | C125_refuted_late, C125_refuted_twice |
| C126 Dump returns while the store is in use | partial | C126_refuted |
| C127 A node with a lock: exclusion, no crash, no deadlock | proved | C127_excludes, C127_finishes, C127_goes_on |
| C128 Query on the tree in memory | proved | C128_query, C128_search |
| C129 Get of a key while another goroutine sets another key | partial | C129_before_after, C129_refuted_miss, C129_refuted_nil, C129_refuted_panic |
| C130 Get while other goroutines overwrite keys that exist | proved | C130_any, C130_ends, C130_key |
| C131 Remove on the tree in memory | proved | C131_remove |
| C132 Get while another goroutine removes | partial | C132_refuted_miss, C132_refuted_value |
| C133 What Get may see while others remove | proved | C133_ends, C133_readers |
| C134 Remove while others change the tree | partial | C134_refuted_lost, C134_refuted_panic, C134_refuted_set, C134_refuted_shorter, C134_refuted_wrong |
| C135 Walk while other goroutines overwrite keys | proved | C135_alone, C135_any, C135_ends, C135_keys |
| C136 Walk while another goroutine sets a new key | partial | C136_before_after, C136_refuted_nil, C136_refuted_phantom, C136_refuted_twice |
| C137 Walk while another goroutine removes a key | partial | C137_before_after, C137_refuted_skips |
| C138 What Walk may show while others remove | proved | C138_ends, C138_removes |
| C139 Joins in parallel through the shared pool of buffers | proved | C139_radix, C139_store |
| C140 Searches in parallel through the shared pool of match contexts | proved | C140_contexts |
| C141 Lookups, SetTag and overwriting Set are linearizable | proved | C141_bits, C141_linearizable |
| C142 Old values reported by concurrent setters | partial | C142_refuted |
| C143 Lookups, SetTag and overwriting Set are wait-free | proved | C143_wait_free |
| C144 Get beside Set of a new key | partial | C144_refuted |
| C145 SetComment beside SetComment | partial | C145_refuted |
| C146 Concurrent updates of one key | partial | C146_refuted |
| C147 Get beside Update | partial | C147_refuted |
| C148 Fractions of a duration are within a nanosecond | proved | C148_error, C148_terms |
| C149 Trailing zeros of a fraction do not matter | partial | C149_refuted |
| C150 Dup beside overwriting Sets | proved | C150_copies, C150_ends, C150_keys, C150_unborn |
| C151 Dup is a snapshot | partial | C151_refuted |
| C152 Dup beside new and removed keys | partial | C152_before_after, C152_refuted_nil, C152_refuted_phantom, C152_refuted_stays, C152_refuted_twice |
| C153 Goroutines that set keys in sections of their own | proved | C153_ends, C153_keys, C153_sections |
| C154 Goroutines that set keys in new sections of their own | partial | C154_refuted |
| C155 Exports while other goroutines overwrite values | proved | C155_ends, C155_exports, C155_readers, C155_unfiltered |
| C156 An export is a snapshot | partial | C156_refuted |
| C157 A filtered export has only values that pass the filter | partial | C157_refuted |
| C158 Exports beside new and removed keys | partial | C158_refuted_missing, C158_refuted_phantom |
| C159 What WithPosition does to a Load | partial | C159_refuted |
| C160 The options of a Load are for that Load only | partial | C160_refuted, C160_refuted_position |
| C161 GetPosition returns what WithPosition set | partial | C161_names, C161_refuted, C161_round_trip |
| C162 A dummy store answers as an empty one | partial | C162_agrees, C162_agrees_paths, C162_delimiter, C162_getters, C162_locate, C162_meta, C162_mode, C162_prefix, C162_refuted, C162_set, C162_view, C162_walk |
| C163 What a position is for each provider | proved | C163_consul, C163_consul_panic, C163_down, C163_etcd, C163_file, C163_inert, C163_load |
| C164 What Load leaves in a provider | proved | C164_again, C164_left |
| C165 What New makes of its options | proved | C165_new, C165_order, C165_says, C165_set |
| C166 A Clone of a store behaves as the store | partial | C166_refuted, C166_same, C166_silent, C166_stuck |
| C167 The codec registered for an extension | proved | C167_builtin, C167_codec |
| C168 The codec of a file is found by its extension | partial | C168_all, C168_found, C168_refuted |
| C169 New leaves the environment alone | partial | C169_prefix, C169_refuted |
| C170 Pretty json | partial | C170_option, C170_refuted, C170_same |
| C171 Set and Remove of the store in memory | proved | C171_remove, C171_set |
| C172 Goroutines that call Set of the store on keys that exist | proved | C172_ends, C172_leaves, C172_race |
| C173 A new key is new only once | partial | C173_refuted |
| C174 Delete handlers tell what was removed | partial | C174_refuted |
| C175 A Set by a user leaves the key marked as modified | partial | C175_refuted |
| C176 Goroutines that work in sections of their own | proved | C176_alone, C176_ends, C176_work |
| C177 Goroutines that use the store in sections of their own | proved | C177_alone, C177_calls, C177_ends |
| C178 GetM(path) through a handle with a prefix | proved | C178_any, C178_refuted, C178_rel |
| C179 Sizes in the notations of Go literals | proved | C179_bare, C179_kibi, C179_kilo, C179_literal, C179_only |
| C180 Values are two words: Get beside Set | partial | C180_any, C180_key, C180_reduction, C180_refuted, C180_sets |
| C181 Memory safety of goroutines beside each other | partial | C181_memory, C181_refuted, C181_start |
| C182 Watch and Close of the file provider | partial | C182_calls, C182_closed, C182_dead, C182_delivered, C182_one, C182_refuted |
| C183 Events of the watched file | partial | C183_away, C183_clean, C183_file, C183_inside, C183_link, C183_refuted |
| C184 Watch and Close of the etcd provider | partial | C184_calls, C184_closed, C184_delivered, C184_refuted, C184_spins |
| C185 Watch and Close of the consul provider | partial | C185_closed, C185_lost, C185_own, C185_refuted |
| C186 Exports of one's own section beside other goroutines | proved | C186_export, C186_keys |
| C187 Updates in one's own section are not lost | proved | C187_count |
| C188 At most two nodes for each key ever written | proved | C188_depth, C188_nodes |
| C189 A tree whose keys have all been removed is small again | partial | C189_refuted |
| C190 The cost of a lookup depends on the key and its siblings only | proved | C190_plain, C190_query |
| C191 The cost of Set depends on the key and its siblings only | proved | C191_set |
| C192 The cost of Remove depends on the key and its siblings only | proved | C192_remove |
| C193 No call costs more the more keys there are | proved | C193_calls, C193_fan |
| C194 With patterns too a lookup costs no more the more keys there are | partial | C194_hist, C194_query, C194_refuted, C194_remove |
| C195 With patterns the cost of a lookup is polynomial in the length of the path | partial | C195_doubles, C195_keys, C195_refuted |
| C196 The tree never stores more text than was written | proved | C196_keys, C196_prefixes |
| C197 Keys away from the patterns behave as if there were no patterns | proved | C197_history, C197_plain_history, C197_set_get |
| C198 A key is found and lost under its own path only, unless a pattern of it is met | proved | C198_query, C198_remove, aside_meaning, aside_plain |
| C199 A stored key is what its own path looks up, also with patterns | partial | C199_refuted |
| C200 First come, first served | proved | C200_first_served |
| C201 A route that was there first keeps the paths it matches | proved | C201_param, C201_tail, C201_wild |
| C202 A binding is a name out of a stored key and a piece of the path | proved | C202_pieces |
| C203 Only a ':' or '*' right after a delimiter is a pattern | partial | C203_refuted |
| C204 The bindings belong to the key that is found | partial | C204_none, C204_refuted |
| C205 Routes with different parameters in the same place | partial | C205_clash, C205_refuted |
| C206 Routes with several parameters | proved | C206_found, C206_stays |
| C207 Trees of routes | proved | C207_found, C207_long_segments, C207_removed |
| C208 Paths too short for the middle of their route | proved | C208_short |
| C209 A path is not answered by a longer route | partial | C209_over, C209_refuted |
| C210 Texts with other units are no sizes | partial | C210_kibi, C210_kilo, C210_refuted |
| C211 Which byte strings are the same key | proved | C211_apart, C211_lookup, C211_reads, C211_set, C211_text, C211_well, C211_wellformed |
| C212 Paths that go on behind their route | proved | C212_beyond |
| C213 What the integer helpers read | proved | C213_int, C213_int_clamped, C213_int_error, C213_int_written, C213_must_int, C213_must_uint, C213_uint, C213_uint_over, C213_uint_signed, C213_uint_written |
| C214 Texts that are no integers give 0 | partial | C214_refuted |
| C215 Typed getters report NotFound for a path never written | partial | C215_refuted |
| C216 What typed getters answer for sections | proved | C216_branch, C216_section, C216_unwritten |
| C217 An observer of the handlers can rebuild the data | proved | C217_learns |
| C218 The recursive mode is for lookups only | partial | C218_refuted |
| C219 What changes through a recursive view do | proved | C219_comment, C219_remove, C219_tag |
| C220 StartsWith tests the last path fragment by delimiter | partial | C220_refuted |
| C221 What StartsWith and EndsWith test | proved | C221_absent, C221_key, C221_section |
| C222 Layers: a key has the value of the last source that has it | proved | C222_last, C222_marks, C222_other |
| C223 Loading everything once more changes nothing | proved | C223_again |
| C224 WithStoreFlattenSlice is for the Load it is given to | partial | C224_refuted, C224_refuted_again |
| C225 Which flag for flattening a Load leaves | proved | C225_left |
| C226 Several Merges: the last map that has a key decides, and a repetition changes nothing | proved | C226_again, C226_last |
| C227 Merges without a common key can change places | proved | C227_swap |
| C228 A Merge whose keys are all merged again later leaves no trace | proved | C228_covered |
| C229 Walk visits sections as a whole, from above | proved | C229_above, C229_section, C229_walk |
| C230 Calls do not change the order of the keys | proved | C230_before, C230_run, C230_step, C230_sub |
| C231 First written, first visited | proved | C231_first, C231_later |
| C232 The order of Walk is a matter of the keys | partial | C232_refuted |
| C233 Which of two nodes Walk visits first | proved | C233_exact |
| C234 Only the order of the first writes counts for the order of Walk | proved | C234_firsts |
| C235 Overwriting a key does not move it | proved | C235_again |
| C236 Where a key that is written comes in the order of Walk | proved | C236_new, C236_remove, C236_run, C236_step |
| C237 The order of Walk after Merge and Load | proved | C237_dedicated, C237_load, C237_merge, C237_merges |
| C238 The same map gives the same order of Walk and text of Dump | partial | C238_refuted |
| C239 The settings of a handle are its own | proved | C239_delim, C239_new, C239_own, C239_prefix |
| C240 The settings of a handle of a dummy store are its own | partial | C240_one, C240_refuted |
| C241 Many views and copies: each tree is what the calls through its own handles make of it | proved | C241_dup, C241_family, C241_map, C241_number, C241_settings, C241_still |
| C242 Get, MustGet and Has of a store answer as the map does, also after its own writes | proved | C242_answers, C242_present, C242_set |
| C243 Any program of store calls behaves as one map with one rule for handlers | proved | C243_from, C243_session |
| C244 Loading flags, handlers and parents change only handler calls and modified marks | proved | C244_quiet |
