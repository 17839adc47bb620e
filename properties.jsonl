{"id": "C01", "title": "A key that was just Set can be read back", "statement": "After Set(k, v) the very next Get(k) reports found=true and returns v, whatever the store held before.", "quantifier": "all stores reachable by any sequence of operations, all keys k, all values v", "why_tests_cant": "The outcome depends on how the keys inserted earlier happen to share prefixes with k; a test fixes one insertion order and one key set.", "anchors": ["radix/node.go: insertInternal, split, insertAsLeaf, matchR", "radix/trie.go: Set, Get, Query"]}
{"id": "C02", "title": "The store is a map from keys to the last written value", "statement": "After any sequence of Set calls, the value that Query/Get returns for a key is the value of the last Set of that key, and the zero value for a key that was never Set.", "quantifier": "all finite sequences of Set operations over ordinary keys (no route patterns, not ending with the delimiter), all query keys", "why_tests_cant": "There are unboundedly many histories and prefix overlaps; every one drives a different sequence of node splits.", "anchors": ["radix/node.go: insertInternal, split, matchChildren, matchR", "radix/trie.go: Set, Query, search"]}
{"id": "C03", "title": "Writing one key never disturbs another", "statement": "Set(k, v) leaves the data, description, comment, tag, leaf/data/modified flags and reported full key of every other existing key unchanged.", "quantifier": "all reachable stores, all keys k, all other keys k' present in the store", "why_tests_cant": "A wrong split can lose or move another key's attributes only for particular overlaps of fragments; tests look at a handful of keys.", "anchors": ["radix/node.go: insertInternal, split"]}
{"id": "C04", "title": "Set reports the previous value", "statement": "The old value returned by Set(k, v) is the value previously held at k, and nil when k held none.", "quantifier": "all reachable stores, all keys, all values", "why_tests_cant": "Needs every history; a test shows one overwrite.", "anchors": ["radix/node.go: insertInternal", "radix/trie.go: Set, Insert", "store.go: Set, setKV"]}
{"id": "C05", "title": "Walk enumerates the stored keys exactly once", "statement": "Walk(\"\") calls back once for every node of the store and no two visited nodes carry the same full path; the nodes that carry data are exactly the keys that were Set and not removed.", "quantifier": "all stores reachable by any sequence of Set/Remove operations; the effect of a single Remove for keys without patterns", "why_tests_cant": "Duplicate or missing nodes need particular split/remove orders.", "anchors": ["radix/node.go: walk, Walk, insertInternal, split, remove", "radix/trie.go: Walk"]}
{"id": "C06", "title": "Operations on ordinary keys always terminate without a panic", "statement": "Set, SetEx, Get, Has, HasPart, Locate, Query, Remove, SetComment, SetTag, SetNode, Update and Walk return normally (no index/slice panic, no endless loop) for every key string, as long as no stored key contains a ':' or '*' directly after the delimiter.", "quantifier": "all reachable stores with ordinary keys, all argument byte strings including empty and invalid UTF-8", "why_tests_cant": "Absence of out-of-range indexes over all inputs is universal; fuzzing only samples.", "anchors": ["radix/node.go: matchChildren, matchR, split, findCommonPrefixLength", "radix/trie.go: search and all methods"]}
{"id": "C07", "title": "Every lookup terminates, also when keys contain route patterns", "statement": "For every stored key set (including ':ident' and '*' patterns) and every query, Get/Has/Locate return.", "quantifier": "all stores, all query strings", "why_tests_cant": "Non-termination is invisible to a passing test suite unless the looping combination is tried.", "anchors": ["radix/node.go: matchR, extractor", "radix/trie.go: search"]}
{"id": "C08", "title": "Has tells which paths exist", "statement": "Has(p) is true exactly if p was stored or p is a delimiter-complete ancestor path of a stored key; a mere string prefix such as \"app.l\" gives false.", "quantifier": "all reachable stores, all paths", "why_tests_cant": "Depends on where nodes happen to be split, i.e. on the whole key set and insertion history.", "anchors": ["radix/trie.go: Has, Search, search", "radix/node.go: matchR"]}
{"id": "C09", "title": "HasPart is prefix existence", "statement": "HasPart(p) is true exactly if some stored key starts with p.", "quantifier": "all stores built by any sequence of Sets, all strings p", "why_tests_cant": "Universal over key sets and strings; the empty store is a special case tests skip.", "anchors": ["radix/trie.go: HasPart", "radix/node.go: matchR"]}
{"id": "C10", "title": "Remove deletes a key with its descendants and nothing else", "statement": "Remove(k) removes k and the keys below k (k + delimiter + ...); the data and attributes of every other key stay as they were.", "quantifier": "all reachable stores, all keys k, all other keys", "why_tests_cant": "Data loss of an unrelated key needs a particular prefix overlap (e.g. app / apple).", "anchors": ["radix/trie.go: Remove, RemoveEx", "radix/node.go: remove, matchR"]}
{"id": "C11", "title": "Remove reports truthfully and leaves no trace", "statement": "Remove(k) returns true for a stored key, afterwards Get(k) and Has(k) say not found; once all keys under a path are removed the path itself no longer exists.", "quantifier": "all reachable stores, all keys", "why_tests_cant": "Left-over branch nodes appear only after particular removal histories.", "anchors": ["radix/trie.go: RemoveEx, Has", "radix/node.go: remove"]}
{"id": "C12", "title": "A node's Key() is its full path", "statement": "For every node handed out by Walk/Locate/Set, Key() is the concatenation of the key pieces from the root to it.", "quantifier": "all reachable stores, all key strings including multi-byte UTF-8", "why_tests_cant": "The stored full path is truncated by rune counts on a byte string; only non-ASCII keys with particular splits show it.", "anchors": ["radix/node.go: split, insertAsLeaf, Key, KeyPiece", "radix/trie.go: Walk"]}
{"id": "C13", "title": "Different keys are different entries", "statement": "Two different key strings never address the same entry.", "quantifier": "all pairs of byte strings", "why_tests_cant": "Needs all byte strings; collisions occur only for undecodable bytes.", "anchors": ["radix/trie.go: Set, search ([]rune conversion)"]}
{"id": "C14", "title": "Keys with blanks", "statement": "A value Set under a key containing blanks is returned by Get with the same key.", "quantifier": "all keys containing U+0020, all stores", "why_tests_cant": "Tests use blank-free keys.", "anchors": ["radix/trie.go: Set, Query, SetEx, SetNode"]}
{"id": "C15", "title": "A prefixed view addresses prefix.key of the same data", "statement": "WithPrefix(p) yields a view whose Set/Get/Has/Remove/SetComment/SetTag on k act on Join(p,k) of the original store; writes through one view are visible through every other view; nested WithPrefix composes.", "quantifier": "all stores, prefixes and keys, all interleavings of operations through different views", "why_tests_cant": "Universal over prefixes, keys and interleavings of views.", "anchors": ["radix/load.go: WithPrefix, withPrefixImpl, WithPrefixReplaced, SetPrefix, N, R, BR", "radix/trie.go: join1, Join, dupS"]}
{"id": "C16", "title": "Join puts exactly one delimiter between non-empty parts", "statement": "Join(parts...) is the non-empty parts separated by the delimiter; empty parts are ignored; joining is associative.", "quantifier": "all lists of strings, all delimiters", "why_tests_cant": "The delimiter is written as one byte; delimiters above U+007F behave differently.", "anchors": ["radix/trie.go: Join, join1", "store.go: join"]}
{"id": "C17", "title": "Dup is an independent exact copy", "statement": "Dup/Clone has the same keys, data, flags, comments and tags as the original, and later operations on either never show in the other.", "quantifier": "all reachable stores, all later operation sequences on either copy", "why_tests_cant": "Independence is a statement about all future operation sequences.", "anchors": ["radix/node.go: Dup", "radix/trie.go: Dup, dupS", "store.go: Dup, Clone, dupS"]}
{"id": "C18", "title": "SetComment and SetTag touch exactly the addressed key", "statement": "SetComment/SetTag change description/comment/tag of the addressed key only, return false and change nothing if the path cannot be found, and the attributes stay with the key when later insertions reorganise the tree.", "quantifier": "all reachable stores, all paths, all later Set sequences", "why_tests_cant": "A partial match silently updates another node; only specific missing paths show that.", "anchors": ["radix/trie.go: SetComment, SetTag, search", "radix/node.go: split"]}
{"id": "C19", "title": "SetNode stores all given fields", "statement": "After SetNode(path, data, tag, desc, comment...) the node holds that data, tag, description and comment.", "quantifier": "all reachable stores, all argument values, any number of comments", "why_tests_cant": "A dropped argument is visible only if every field is read back.", "anchors": ["radix/trie.go: SetNode"]}
{"id": "C20", "title": "SetEmpty empties a node", "statement": "After SetEmpty(path) the node's data is the zero value, its tag nil, and HasData() is false; other keys are unchanged.", "quantifier": "all reachable stores, all paths", "why_tests_cant": "Universal over stores; flags are not inspected by tests.", "anchors": ["radix/node.go: SetEmpty, HasData, Empty", "radix/trie.go: SetEmpty"]}
{"id": "C21", "title": "Update keeps the value unless the callback changes it", "statement": "Update(path, cb) calls cb exactly once with the node of path and its old value; if cb does not touch the data the value of the key is unchanged.", "quantifier": "all reachable stores, all paths, all callbacks", "why_tests_cant": "Tests' callbacks always set comments and never re-read the value.", "anchors": ["radix/trie.go: Update", "store.go: Update"]}
{"id": "C22", "title": "SetEx calls its callback exactly once", "statement": "SetEx(path, v, cb) calls cb exactly once with the path, the old value and the node that now holds v.", "quantifier": "all reachable stores, all paths", "why_tests_cant": "The number of calls depends on the depth of the node in the tree.", "anchors": ["radix/node.go: insertInternal", "radix/trie.go: SetEx"]}
{"id": "C23", "title": "Trailing route parameter", "statement": "With a stored route prefix + \":name\" every one-segment path prefix + s is found and binds name = s.", "quantifier": "all route prefixes, parameter names and segments", "why_tests_cant": "Matching depends on the relative lengths of pattern and path; tests use a few lengths.", "anchors": ["radix/node.go: matchR, extractor", "radix/trie.go: Locate, Query"]}
{"id": "C24", "title": "Route parameter followed by more segments", "statement": "With a stored route pre/:name/tail every path pre/s/tail is found, independent of the lengths of name and s; and with several routes under the same parameter each is found.", "quantifier": "all routes and paths", "why_tests_cant": "Length-dependent index mix-ups only show for particular length combinations.", "anchors": ["radix/node.go: matchR"]}
{"id": "C25", "title": "Wildcard route", "statement": "With a stored route prefix + \"*name\" every non-empty rest is found and binds name = rest.", "quantifier": "all prefixes, names and rests", "why_tests_cant": "Universal over strings.", "anchors": ["radix/node.go: matchR"]}
{"id": "C26", "title": "GetEx delivers route parameters", "statement": "GetEx(path, cb) passes to cb the parameter bindings of the matched route.", "quantifier": "all route stores, all paths", "why_tests_cant": "Tests never read kvpair through GetEx.", "anchors": ["radix/trie.go: GetEx, getNode"]}
{"id": "C27", "title": "Backward-recursive lookup finds the nearest owner", "statement": "On a BR() view a lookup of a.b.c.key tries a.b.c.key, a.b.key, a.key, key in this order and returns the first one that exists.", "quantifier": "all reachable stores, all paths of any depth", "why_tests_cant": "Whether an intermediate probe stops the climb depends on unrelated keys.", "anchors": ["radix/trie.go: search", "radix/load.go: BR"]}
{"id": "C28", "title": "GetR exports exactly the leaf keys and never panics", "statement": "GetR(\"\") is the map of all leaf keys (not ending in the delimiter) to their data; GetR(path) is the restriction to the subtree; an unknown path gives the default; no call panics.", "quantifier": "all reachable stores including the empty one, all paths", "why_tests_cant": "The nil-node case arises only on particular states.", "anchors": ["radix/cvter.go: GetR", "radix/trie.go: Locate", "radix/node.go: walk"]}
{"id": "C29", "title": "GetM(\"\") exports the store relative to the prefix", "statement": "GetM(\"\") without prefix is the map of all leaf keys to data; on a prefixed view it contains exactly the keys below the prefix, with the prefix stripped; it never panics.", "quantifier": "all reachable stores, all prefixes, all filters", "why_tests_cant": "Slicing by prefix length goes wrong only with a prefix and particular key lengths.", "anchors": ["radix/cvter.go: GetM"]}
{"id": "C30", "title": "GetM(path) exports the subtree relative to path", "statement": "GetM(path) contains for every leaf key path+delimiter+rest the value under rest (nested maps), and nothing else; it never panics.", "quantifier": "all reachable stores, all paths of any depth", "why_tests_cant": "Component counting is wrong only for some depths.", "anchors": ["radix/cvter.go: GetM, prefixPutter.put, putKeys"]}
{"id": "C31", "title": "Un-flattening keys is deterministic and lossless", "statement": "splitting dotted keys into nested maps gives the same result for every map iteration order, and every input key can be looked up in the result.", "quantifier": "all maps, all iteration orders", "why_tests_cant": "Go's map iteration order is random; a test sees one order.", "anchors": ["radix/cvter.go: splitCompactKeys, submap, To"]}
{"id": "C32", "title": "Typed getters and defaults", "statement": "GetX/MustX(path, default...) returns the converted value if the path is found, otherwise the last given default (or the zero value), with err = NotFound.", "quantifier": "all reachable stores whose keys contain no patterns, all paths, all default lists, any converter", "why_tests_cant": "Universal over stores and defaults.", "anchors": ["radix/cvter.go: GetString, GetBool, GetInt..., GetFloat64..."]}
{"id": "C33", "title": "Size strings", "statement": "GetKibiBytes/GetKiloBytes return n*1024^k (n*1000^k) for a number n with the k-th suffix k,m,g,t,p,e, in any letter case and with optional iB/B; a value that does not fit in 64 bits is not silently returned as a different number.", "quantifier": "all numbers and suffixes", "why_tests_cant": "Needs all magnitudes; wrap-around appears at huge values only.", "anchors": ["radix/cvter.go: GetKibiBytes, FromKibiBytes, fromKibiBytes, GetKiloBytes, FromKiloBytes"]}
{"id": "C34", "title": "Formatting a duration never panics", "statement": "SmartDurationString(d) returns for every duration d.", "quantifier": "all 2^64 durations", "why_tests_cant": "The fixed buffer is too small only for extreme values.", "anchors": ["internal/times/dur.go: shortDurFormat, SmartDurationString, fmtInt, fmtFrac"]}
{"id": "C35", "title": "Duration text round trip", "statement": "ParseDuration(SmartDurationString(d)) = d, also with useFrac.", "quantifier": "all durations for which formatting succeeds", "why_tests_cant": "2^64 values; unit carry and fraction digits interact.", "anchors": ["internal/times/dur.go: shortDurFormat, ParseDuration, leadingInt, leadingFraction"]}
{"id": "C36", "title": "ParseDuration detects overflow", "statement": "An accepted duration string denotes exactly the sum of its terms; a sum outside the int64 range is rejected.", "quantifier": "all strings", "why_tests_cant": "Wrap-around needs two terms summing exactly to 2^64.", "anchors": ["internal/times/dur.go: ParseDuration"]}
{"id": "C37", "title": "Every user Set fires exactly one kind of handler", "statement": "store.Set(k,v) calls every registered on-new handler once if k did not exist, otherwise every on-change handler once, with the right path, new and old value; no other handler is called; Remove calls the on-delete handlers once exactly when something was removed.", "quantifier": "all reachable stores, all handler lists, all keys and values", "why_tests_cant": "Exists/new decision depends on store shape.", "anchors": ["store.go: Set, setKV, tryOnSet, tryOnDelete, Remove, RemoveEx"]}
{"id": "C38", "title": "Handlers also see merges, loads and prefixed views", "statement": "Handlers fire for keys written via Merge, Load or a WithPrefix view, with mergingMapOrLoading = true for Merge/Load and false for a direct Set.", "quantifier": "all stores, all maps merged or loaded, all prefixes", "why_tests_cant": "Tests log but never assert the flag or merged keys.", "anchors": ["store.go: dupS, WithPrefix, tryOnSet", "load.go: privateSetter, loadMapByValueType"]}
{"id": "C39", "title": "Modified state", "statement": "A key is marked modified exactly if it was written by a Set outside loading (since its node was created); loading alone never marks a key; the mark survives tree reorganisation.", "quantifier": "all sequences of Set / loading-Set operations", "why_tests_cant": "Marks must survive every split order.", "anchors": ["store.go: setKV", "radix/node.go: SetModified, split", "load.go: WithinLoading"]}
{"id": "C40", "title": "Merge distributes a nested map over the tree", "statement": "After store.Merge(p, m) every scalar at path k1,...,kn in m is readable at p.k1...kn (below the store's prefix) for every map iteration order, and all other keys are unchanged.", "quantifier": "all stores, all nested maps with non-conflicting keys, all iteration orders, all prefixes", "why_tests_cant": "Random iteration order and unbounded nesting.", "anchors": ["store.go: Merge", "load.go: loadMap, loadMapByValueType, privateSetter, loadMapAny"]}
{"id": "C41", "title": "Trie-level Merge", "statement": "After Trie.Merge(p, m) every scalar at k1...kn of m is readable at p.k1...kn.", "quantifier": "all tries, all nested maps, all prefixes", "why_tests_cant": "Nested maps and slices take different prefix paths.", "anchors": ["radix/trie.go: Merge", "radix/load.go: loadMap, loadMapByValueType"]}
{"id": "C42", "title": "Loading is mutually exclusive and always released", "statement": "At any time at most one Load/WithinLoading body runs on a store, whatever the thread schedule; when the body ends (normally, with an error or by panic) the store is no longer in loading state.", "quantifier": "all thread schedules, any number of threads", "why_tests_cant": "Schedules cannot be enumerated by tests.", "anchors": ["load.go: WithinLoading, Load, inLoading"]}
{"id": "C43", "title": "Loading keeps the metadata of the provider", "statement": "Description, comment and tag delivered by a provider are attached to the loaded keys.", "quantifier": "all stores, all provider data", "why_tests_cant": "No test reads metadata after Load.", "anchors": ["load.go: loadMapDedicated, privateSetter", "store.go: setKV"]}
{"id": "C44", "title": "Load picks the data source correctly and reports errors", "statement": "Load uses Read() if it succeeds; otherwise, on ErrNotImplemented, ReadBytes()+codec, or streams all pairs; any other error is returned and nothing is stored; a successful streaming provider gives no error.", "quantifier": "all provider/codec behaviours", "why_tests_cant": "Combinatorial over provider outcomes.", "anchors": ["load.go: Load, tryLoad, newLoader"]}
{"id": "C45", "title": "Save writes back without losing entries", "statement": "After Load from a source, changing a key and Save, the source again contains every entry (changed or not) under its original key.", "quantifier": "all loaded data sets, all modifications, all prefixes", "why_tests_cant": "Tests only check that Save returns nil.", "anchors": ["load.go: Save, trySave", "radix/cvter.go: GetM"]}
{"id": "C46", "title": "An expiring TTL clears its own key only", "statement": "When the TTL of a leaf key expires its data becomes the zero value (the key itself stays) and no other key changes; for a branch, the branch and its keys are removed; regardless of operations executed between SetTTL and expiry.", "quantifier": "all interleavings of Set/SetTTL/expiry events", "why_tests_cant": "Needs particular insertions between arming and expiry, which tests with sleeps do not cover.", "anchors": ["radix/trie.go: SetTTL, SetTTLFast, TTL.run", "radix/node.go: SetEmpty, split"]}
{"id": "C47", "title": "Close stops TTL jobs", "statement": "After Close of the store (or trie) returns no TTL job modifies the store any more.", "quantifier": "all schedules of timers, Close and jobs", "why_tests_cant": "A race between timer and cancellation.", "anchors": ["radix/trie.go: trieS.Close, TTL.Close, TTL.run", "store.go: Close"]}
{"id": "C48", "title": "Op names round-trip as text", "statement": "UnmarshalText(MarshalText(op)) gives op back.", "quantifier": "all named ops", "why_tests_cant": "No test round-trips.", "anchors": ["op.go: Op.MarshalText, Op.UnmarshalText, Op.Marshal"]}
{"id": "C49", "title": "Deflate/Normalize are deterministic", "statement": "Deflate(m, sep) gives the same nested map for every iteration order and each value is found by following the separated key; Normalize leaves no map with non-string keys reachable.", "quantifier": "all maps, all iteration orders", "why_tests_cant": "Random iteration order.", "anchors": ["internal/cvt/cvt.go: Deflate, Normalize, normalizeMap"]}
{"id": "C50", "title": "Environment keys are mapped to dotted keys", "statement": "The env provider maps NAME_PART to name.part (after prefix strip/prepend), skips variables without the prefix and never panics.", "quantifier": "all environments, all option combinations", "why_tests_cant": "Universal over variable names.", "anchors": ["providers/env/env.go: prepare, Read, Next"]}
{"id": "C51", "title": "Context values iterate in sorted order exactly once", "statement": "Next() enumerates all keys of the context in ascending order, each exactly once, then stops; Reset restarts.", "quantifier": "all contexts, all interleavings of Next and Reset", "why_tests_cant": "Universal over contents.", "anchors": ["internal/ctx/ctx.go: Next, Reset, WithValues, add"]}
{"id": "C52", "title": "Store.RecursiveMode answers", "statement": "Store.RecursiveMode() returns the mode selected by N/R/BR.", "quantifier": "all stores", "why_tests_cant": "An infinite recursion is only visible when called.", "anchors": ["store.go: RecursiveMode"]}
{"id": "C53", "title": "Changing the delimiter re-interprets but never loses data", "statement": "SetDelimiter leaves every stored key readable under its full string with the same value.", "quantifier": "all reachable stores, all delimiters (for keys that are ordinary under both)", "why_tests_cant": "Universal over key sets and delimiters.", "anchors": ["radix/trie.go: SetDelimiter, Delimiter, Query"]}
{"id": "C54", "title": "External change events are applied", "statement": "A create/write event sets every delivered key to its value, a remove event removes the key, rename/chmod change nothing.", "quantifier": "all event sequences, all stores", "why_tests_cant": "Event combinations; file events take a different dynamic type.", "anchors": ["load.go: applyExternalChanges, applyChanges", "providers/file/file.go: Watch"]}
{"id": "C55", "title": "Close closes every watcher exactly once", "statement": "Store.Close() closes each provider watch registered by a Load on that store.", "quantifier": "all sequences of Load (with or without prefix) and Close", "why_tests_cant": "Needs Load with WithStorePrefix and a watchable provider.", "anchors": ["load.go: startWatch, WithStorePrefix", "store.go: Close"]}
{"id": "C56", "title": "Node accessors agree with each other", "statement": "IsLeaf/IsBranch are complementary, HasData/Empty are complementary, and SetModified/ToggleModified/ResetModified change only the modified flag.", "quantifier": "all node type values", "why_tests_cant": "Bit mask mistakes show only for certain flag combinations.", "anchors": ["radix/node.go: isBranch, IsLeaf, HasData, Empty, SetModified, ToggleModified, ResetModified"]}
{"id": "C57", "title": "The result does not depend on the insertion order", "statement": "Two stores built from the same key/value pairs (distinct keys) in different order answer Get identically.", "quantifier": "all permutations of all key/value lists", "why_tests_cant": "Factorially many orders.", "anchors": ["radix/node.go: insertInternal, split", "radix/trie.go: Get, Query"]}
{"id": "C58", "title": "Has, Search, Locate, Query and GetEx agree", "statement": "Search = Has = Locate's found; Query found implies Has; GetEx's callback runs exactly if Query reports found; GetDesc/GetComment/GetTag fail exactly when Query does not find.", "quantifier": "all stores, all paths", "why_tests_cant": "Universal over stores and paths.", "anchors": ["radix/trie.go: Has, Search, Locate, Query, getNode, getNodeFast, GetEx, GetDesc, GetTag, GetComment"]}
{"id": "C59", "title": "Routes match nothing else", "statement": "With a stored route prefix + \":name\" a path with more segments than the route is not found.", "quantifier": "all routes, all longer paths", "why_tests_cant": "False matches need particular length combinations of parameter name and path.", "anchors": ["radix/node.go: matchR, extractor"]}
{"id": "C60", "title": "Walk(path) visits the subtree of the path", "statement": "Walk(path, cb) with a non-empty path calls back for exactly the nodes whose full key starts with the path, each once.", "quantifier": "all stores reachable by any API calls, all delimiters, all paths", "why_tests_cant": "Whether a path is a node of its own depends on which other keys were stored and on how the tree was split.", "anchors": ["radix/trie.go:859-876 Walk", "radix/node.go:581-600 walk"]}
{"id": "C61", "title": "Quoted texts can be read back", "statement": "quote(s) never fails, consists of printable ASCII characters only and determines s: un-escaping it gives s back.", "quantifier": "all byte strings, valid UTF-8 or not", "why_tests_cant": "Universal over byte strings; invalid UTF-8 and U+FFFD are distinguished only by the width of the decoded rune.", "anchors": ["internal/times/quote.go: quote", "internal/times/quote.go: quoteSpecialRune"]}
{"id": "C62", "title": "HCL blocks are unwrapped", "statement": "After decoding HCL every block that occurs once (a list with one map), outside of repeated blocks, is that map itself; every value is found by the path of the block names; nothing else changes; unwrapping again changes nothing.", "quantifier": "all decoded values", "why_tests_cant": "Universal over nested documents.", "anchors": ["codecs/hcl/hcl.go:200-214 flattenHCL"]}
{"id": "C63", "title": "The gob codec round-trips", "statement": "Unmarshal(Marshal(m)) gives m back, on every use of a codec object.", "quantifier": "all maps, all sequences of uses", "why_tests_cant": "No test calls Unmarshal twice or looks at what Marshal returns.", "anchors": ["codecs/gob/gob.go: Marshal, Unmarshal"]}
{"id": "C64", "title": "Keys of consul and etcd are mapped to store keys", "statement": "NormalizeKey strips the prefix, prepends the other one and turns the segments between slashes into segments between delimiters; if no segment contains the delimiter, different keys stay different.", "quantifier": "all keys, all prefixes, all non-empty delimiters that are a slash or contain none", "why_tests_cant": "Universal over keys and options.", "anchors": ["providers/consul/consul.go:242-253 NormalizeKey", "providers/etcd/etcd.go:156-167 NormalizeKey"]}
{"id": "C65", "title": "Consul changes are followed", "statement": "A replica that applies the changes of every event agrees with consul after every event, if each event reports one transaction (a write, or removals); the op of the change tells a creation, a write and a removal apart.", "quantifier": "all histories of transactions, all contents", "why_tests_cant": "Universal over histories; the tests have no consul.", "anchors": ["providers/consul/change.go: Set, Next, findOpIndex, checkOpIndex", "providers/consul/consul.go:289-310 Watch"]}
{"id": "C66", "title": "Etcd events are classified and delivered once", "statement": "The op of an etcd change tells creation, write and removal apart; Next delivers the event's key and value exactly once.", "quantifier": "all events", "why_tests_cant": "Universal over events; the tests have no etcd.", "anchors": ["providers/etcd/change.go: Set, Has, Next"]}
{"id": "C67", "title": "Every write to a watched file is reported", "statement": "Each write or creation of the watched file leads to one callback, in order; events for other files lead to none.", "quantifier": "all sequences of file events", "why_tests_cant": "Depends on the timing of events (5 ms) and on removal.", "anchors": ["providers/file/file.go:153-233 Watch"]}
{"id": "C68", "title": "The map provider offers the given values at dotted paths", "statement": "A map provider with a delimiter holds each value of the given map at the path obtained by splitting its key, with maps inside normalised, and nothing else.", "quantifier": "all maps whose keys are not prefixes of each other, all delimiters, all iteration orders", "why_tests_cant": "Universal over maps.", "anchors": ["providers/maps/maps.go:14-37 New"]}
{"id": "C69", "title": "The flags provider offers the flags with the prefix", "statement": "With WithPrefix(p) exactly the flags whose names begin with p are offered, in ascending order, with their values.", "quantifier": "all flag sets, all prefixes", "why_tests_cant": "Universal over names; no test uses a prefix.", "anchors": ["providers/flags/flags.go: prepare, WithPrefix"]}
{"id": "C70", "title": "No consul change is missed however events are batched", "statement": "The replica agrees with consul after every event also if an event reports several transactions, if something changed between Read and the first event, or if a single watched key is removed.", "quantifier": "all histories, all batchings", "why_tests_cant": "Timing of the watch plan.", "anchors": ["providers/consul/change.go: Set, findOpIndex", "providers/consul/consul.go: Watch, Read"]}
{"id": "C71", "title": "The trie behaves as a finite map with branch points", "statement": "Every sequence of API calls (writes, removals, lookups, attribute reads, through any mixture of views, delimiters and BR handles) returns exactly what the same calls return on a finite map from keys to attributes in which writing a key adds its longest common prefixes with the stored keys; the tree afterwards holds exactly this map.", "quantifier": "all histories over keys without ':' or '*' at the start of a segment, all views", "why_tests_cant": "Universal over histories of any length.", "anchors": ["radix/trie.go: public methods", "radix/node.go: insertInternal, split, matchR, remove"]}
{"id": "C72", "title": "What Get returns after Set", "statement": "After Set(p, v) a query of p gives v; found is true exactly if the key was a leaf or is new and no stored key continues it, or if it ends with the delimiter. SetEx likewise, for keys with blanks too.", "quantifier": "all reachable stores without patterns, all views, paths and values", "why_tests_cant": "Universal over stores.", "anchors": ["radix/trie.go: Set, SetEx, Get, Query", "radix/node.go: insertInternal, matchR"]}
{"id": "C73", "title": "The node of a key holds the last value written", "statement": "After any history without removal a key is a node iff it was written or is the longest common prefix of two written keys; it has data iff it was written, and then the last value written; a query of it gives that value. The order of writes of different keys does not matter for this.", "quantifier": "all histories without removal, route patterns included (for the node), pattern-free for the query", "why_tests_cant": "Universal over histories.", "anchors": ["radix/trie.go: Set, SetEx, SetNode, SetEmpty, Update", "radix/node.go: insertInternal, split"]}
{"id": "C74", "title": "What Has and HasPart answer", "statement": "Has(p) is true iff the full path, or the full path with a delimiter behind it, is a node, that is a common prefix of two stored keys; after a write of p it is true; HasPart(p) on a non-empty store is true iff some key starts with p (ASCII keys).", "quantifier": "all reachable stores without patterns, all views without BR", "why_tests_cant": "Universal over stores.", "anchors": ["radix/trie.go: Has, HasPart"]}
{"id": "C75", "title": "What Remove removes", "statement": "Remove(p) removes exactly the nodes whose key starts with the key Has(p) finds, and nothing if Has(p) is false; if no stored key continues p with something else than the delimiter these are p and what is below p + delimiter; it returns what Has(p) returned and afterwards p is not found.", "quantifier": "all reachable stores without patterns, all views without BR", "why_tests_cant": "Universal over stores.", "anchors": ["radix/trie.go: Remove, RemoveEx", "radix/node.go: remove"]}
{"id": "C76", "title": "Keys reported by nodes", "statement": "The key a node reports is the concatenation of the fragments on the way to it: for all nodes of stores with ASCII keys and for all leaves of stores with valid UTF-8 keys; different keys of valid UTF-8 without blanks never share a node.", "quantifier": "all histories with such keys", "why_tests_cant": "Universal over histories.", "anchors": ["radix/node.go: insertInternal, split, Key"]}
{"id": "C77", "title": "Join of path segments", "statement": "Join skips empty segments and puts the delimiter's byte between the others; it is associative, a single segment is unchanged, and for an ASCII delimiter splitting gives back the non-empty segments.", "quantifier": "all delimiters, all lists of segments", "why_tests_cant": "Universal over segments.", "anchors": ["radix/trie.go: Join, join"]}
{"id": "C78", "title": "A Dup has the same keys and data and shares no node", "statement": "Dup has the same keys in the same order, with the same leaf, data and modified flags and the cloned values; no node is shared, so changing or removing any node of one tree leaves the other as it is.", "quantifier": "all reachable stores, all clone functions, all changes of nodes", "why_tests_cant": "Universal over stores.", "anchors": ["radix/trie.go: Dup", "radix/node.go: Dup"]}
{"id": "C79", "title": "What the attribute setters do", "statement": "SetComment and SetTag on a present key change these attributes of this key only; when nothing matches they change nothing and say so; in no case more than one key changes. SetNode stores the value with description and comment (and drops the tag). SetEmpty stores nil data and tag. Update hands the old value to the callback and leaves what the callback made of a node with nil data. SetEx's callback gets the full path, the old value and the node. No other key changes.", "quantifier": "all reachable stores (without patterns for SetComment and SetTag), all arguments and callbacks", "why_tests_cant": "Universal over stores.", "anchors": ["radix/trie.go: SetComment, SetTag, SetNode, SetEmpty, Update, SetEx"]}
{"id": "C80", "title": "Which routes are found", "statement": "A route q:name (q*name) is found for q + segment (q + rest) with the parameter bound to it, if no stored key continues q with the first rune of the segment and it is the only pattern. A route q:name/tail is found for q segment/tail iff the segment has at most as many runes as :name. The same for several routes that share a parameter. A longer path matches such a route only under the stated length condition.", "quantifier": "all stores with one parameter position, all names, segments and tails", "why_tests_cant": "Universal over strings and lengths.", "anchors": ["radix/node.go: matchR, extractor"]}
{"id": "C81", "title": "When lookups return", "statement": "Every API call returns unless some key k and k followed by ':' are both nodes; with such a pair a lookup of k + segment + delimiter + rest never returns.", "quantifier": "all reachable stores, all calls", "why_tests_cant": "Divergence cannot be observed by a test; universal over stores.", "anchors": ["radix/node.go: matchR"]}
{"id": "C82", "title": "What GetR, GetM and To return", "statement": "GetR, GetM and To return exactly the exported leaves (with the conditions and exceptions of the theorems): for the root, for paths with keep-prefix, for paths of one segment; nested maps built from flat ones hold each value at its split path whatever the iteration order, and lose nothing iff no key lies above another.", "quantifier": "all stores of valid UTF-8 pattern-free keys, all filters", "why_tests_cant": "Random iteration order of Go maps; universal over stores.", "anchors": ["radix/cvter.go: GetR, GetM, To, splitCompactKeys, putKeys"]}
{"id": "C83", "title": "What size strings mean", "statement": "A decimal number with blanks, a unit letter in any case and an optional iB/B gives number times unit modulo 2^64 with the parser's saturation for numbers beyond 64 bits, which is the true size whenever that fits 64 bits.", "quantifier": "all numbers, units, blanks and cases", "why_tests_cant": "Universal over texts.", "anchors": ["radix/cvter.go: FromKibiBytes, FromKiloBytes"]}
{"id": "C84", "title": "What formatting and parsing of durations do", "statement": "Formatting gives the stated text for every duration and panics iff the text has more than 32 bytes, never in the fractional form nor for durations above -100000 days; parsing accepts only texts of the grammar and gives the exact sum or rejects it, for term lists that cannot wrap to 2^64.", "quantifier": "all durations, all texts", "why_tests_cant": "2^64 durations.", "anchors": ["internal/times/dur.go: DurationToString, ParseDuration"]}
{"id": "C85", "title": "Which handlers are called", "statement": "Every Set and Remove of a store calls exactly the stated handlers with the stated arguments, once each, own handlers and parents'; a Set of a key that is no node counts as new, one of a stored key as a change. Merge, loading, and Sets through prefixed views call none.", "quantifier": "all handler lists, stores without patterns, views without BR", "why_tests_cant": "Universal over stores and handlers.", "anchors": ["store.go: Set, Remove, tryOnSet, tryOnChange, tryOnNew"]}
{"id": "C86", "title": "What Merge stores", "statement": "Merge of a nested map at a position stores exactly its leaves at the joined paths, each readable afterwards, in any iteration order of all maps involved.", "quantifier": "all nested maps, positions, conversions; reading back for keys without patterns", "why_tests_cant": "Random iteration order; universal over maps.", "anchors": ["radix/load.go: Merge, loadMap"]}
{"id": "C87", "title": "One loader at a time per store handle", "statement": "Whatever goroutines do, at most one WithinLoading body runs per store handle, the handle is in the loading state exactly while it runs, also when it panics, and nobody waits forever for it.", "quantifier": "any number of goroutines, any programs, any schedules", "why_tests_cant": "Universal over schedules.", "anchors": ["load.go:21-29 WithinLoading", "load.go:91-93 Load"]}
{"id": "C88", "title": "What Load, Save, watching and Close do", "statement": "Load stores exactly what Read, or ReadBytes and the codec, deliver and nothing on any error; Save writes exactly the modified exported keys; change events of a watched provider set and remove exactly the delivered keys; Close calls exactly the registered closers.", "quantifier": "all provider outcomes, all stores without patterns", "why_tests_cant": "Universal over provider behaviours.", "anchors": ["load.go: Load, loadOnce, Save, applyExternalChanges, Close"]}
{"id": "C89", "title": "What TTL jobs do", "statement": "In every schedule: an expired leaf whose key was neither removed nor split is cleared and nothing else changes; an expired branch of an unprefixed handle is removed with exactly the keys below it; each job acts at most once; no other step of the job machinery changes a tree; after trieS.Close no job of its manager that was waiting acts.", "quantifier": "all schedules of any number of jobs, tries and managers; which node a job clears for keys without patterns", "why_tests_cant": "Universal over schedules.", "anchors": ["radix/trie.go:71-257"]}
{"id": "C90", "title": "Which nodes Walk visits", "statement": "Walk(path) with a trailing delimiter visits the subtree of the node found, nothing if nothing matches, everything on a partial match; without a trailing delimiter the subtree of the nearest node above.", "quantifier": "all stores without patterns, all views", "why_tests_cant": "Universal over stores.", "anchors": ["radix/trie.go:859-876 Walk"]}
{"id": "C91", "title": "Which environment variables are offered, as which keys", "statement": "The env provider offers exactly the variables NAME=value with the prefix; keys are lower-cased, stripped and (with underline2dot) dotted at every single underline as stated; values are those of the last variable of a key; keys come in ascending order. It panics iff underline2dot is on and nothing is left of a name.", "quantifier": "all environments, all options without callback, any ToLower", "why_tests_cant": "Universal over environments.", "anchors": ["providers/env/env.go: prepare"]}
{"id": "C92", "title": "Iterating a context", "statement": "After Reset, Next enumerates exactly the keys present then in ascending order, each once, and then stops, whatever was done before; Entry returns the picked key with its value; WithValues keeps the last value of each non-empty name.", "quantifier": "all contexts, all interleavings", "why_tests_cant": "Universal over contents and call sequences.", "anchors": ["internal/ctx/ctx.go"]}
{"id": "C93", "title": "What Deflate and Normalize return", "statement": "If no key leads through another, Deflate has each value at its split path, maps above, nothing else, in any iteration order. Normalize keeps each value at its path with keys printed, is idempotent, and leaves no map with other keys outside of lists of lists and lists of maps.", "quantifier": "all maps, all iteration orders, all printing functions", "why_tests_cant": "Random iteration order; universal over maps.", "anchors": ["internal/cvt/cvt.go: Deflate, Normalize"]}
{"id": "C94", "title": "A store is the map of its history", "statement": "After any sequence of Set and Remove calls the tree holds at every key exactly what the abstract map holds: Set assigns, Remove of a key deletes that key and every key that begins with it. When no key in use begins with another, what a key holds is decided by the last call on it.", "quantifier": "all call sequences, all handles, values and keys without pattern characters; removals of keys that hold data or that no key begins with", "why_tests_cant": "A history is arbitrarily long; node splits and merges depend on the whole history.", "anchors": ["tree.go: Set, Remove", "node.go: insertInternal, remove"]}
{"id": "C95", "title": "A store that watches consul or etcd holds what the remote store holds", "statement": "After Load and each delivered event, every remote key has its value in the store, and no deleted one has.", "quantifier": "all remote histories of writes and deletes", "why_tests_cant": "Interleavings of remote operations are unbounded.", "anchors": ["providers/consul/consul.go: Watch", "providers/etcd/etcd.go: Watch", "load.go: applyExternalChanges"]}
{"id": "C96", "title": "Following consul, when no key begins with another", "statement": "Load followed by the first event of the recursive watch and any number of writes and deletes leaves the store with the value of each remote key (as a string if loaded, as []byte if changed), without the deleted ones, and with everything else untouched; no step panics.", "quantifier": "all remote stores, all histories with growing indexes, all stores, prefix-free sets of ordinary keys", "why_tests_cant": "Interleavings of remote operations are unbounded.", "anchors": ["providers/consul/consul.go: Read, Watch", "providers/consul/change.go", "load.go: Load, applyExternalChanges"]}
{"id": "C97", "title": "Following etcd, when no key begins with another", "statement": "Load followed by the events of any number of writes and deletes leaves the store with the value of each remote key, without the deleted ones, and with everything else untouched.", "quantifier": "all remote stores, all histories with growing revisions, all stores, prefix-free sets of ordinary keys", "why_tests_cant": "Interleavings of remote operations are unbounded.", "anchors": ["providers/etcd/etcd.go: Read, Watch", "providers/etcd/change.go", "load.go: Load, applyExternalChanges"]}
{"id": "C98", "title": "The environment reaches the store", "statement": "After Load with the env provider every selected variable's value is at the key made of its name (the last variable of a key wins), and every other key holds what it held before.", "quantifier": "all environments, all options without callback, all stores", "why_tests_cant": "Universal over environments and contents.", "anchors": ["providers/env/env.go: prepare, Read", "load.go: Load, tryLoad"]}
{"id": "C99", "title": "Reading one key of consul", "statement": "Read of a provider for a single key returns the pair, or an error or nothing if the key is missing.", "quantifier": "all keys and remote states", "why_tests_cant": "Needs a consul server; the missing case is not tested.", "anchors": ["providers/consul/consul.go: Read"]}
{"id": "C100", "title": "SaveAs writes the store", "statement": "SaveAs, of the store or of a loader, writes the contents of the store to the provider through the codec, so that loading the output restores every key and value; an empty store is written as well.", "quantifier": "all stores, codecs and providers", "why_tests_cant": "The tests save one sample and do not reload it; which keys are lost depends on the whole key set.", "anchors": ["load.go: storeS.SaveAs, Loader.Save, Loader.SaveAs", "radix/cvter.go: GetM, splitCompactKeys"]}
{"id": "C101", "title": "Save and load round trip", "statement": "If the codec keeps nested maps, no key is above another, keys have no blanks or empty segments, and values are not themselves flattened, the handle has no prefix and its delimiter is an ASCII character, then loading what SaveAs of a loader wrote succeeds, gives every saved key its value, and leaves every other key as it was.", "quantifier": "all reachable stores with such keys, all iteration orders, all codecs that keep maps, all target stores", "why_tests_cant": "Composition of export, codec and merge over unboundedly many key sets and map iteration orders.", "anchors": ["load.go: Loader.SaveAs, Load", "radix/cvter.go: GetM, splitCompactKeys", "radix/load.go: Merge"]}
{"id": "C102", "title": "Narrow integer getters answer the stored number or an error", "statement": "GetInt32/16/8 and GetUint32/16/8 return the stored number, or report an error if it does not fit the type.", "quantifier": "all stores, keys and stored numbers", "why_tests_cant": "Tests use small numbers only; the range condition is over 2^64 values.", "anchors": ["radix/cvter.go: GetInt32, GetInt16, GetInt8, GetUint32, GetUint16, GetUint8"]}
{"id": "C103", "title": "What integer getters answer", "statement": "GetIntN/GetUintN/MustIntN/MustUintN of a present leaf answer, without an error, the number of the type that differs from the stored one by a multiple of 2^N; this is the stored number exactly if it fits.", "quantifier": "all widths, reachable stores, views, keys, conversions and defaults; keys without patterns", "why_tests_cant": "Quantifies over all stored numbers and stores.", "anchors": ["radix/cvter.go: GetInt64 ... MustUint8"]}
{"id": "C104", "title": "Sizes by key: default or error if there is no size", "statement": "GetKibiBytes/GetKiloBytes(key, default) return the default or report an error if the key holds no text that is a size.", "quantifier": "all stores, keys, texts and defaults", "why_tests_cant": "Tests read valid sizes; the failing texts are unboundedly many.", "anchors": ["radix/cvter.go: GetKibiBytes, GetKiloBytes, FromKibiBytes"]}
{"id": "C105", "title": "What size getters answer", "statement": "GetKibiBytes/GetKiloBytes answer the last default with an error for a missing key, the last default without an error for an empty text, and otherwise what FromKibiBytes/FromKiloBytes make of the text.", "quantifier": "all reachable stores, views, keys, conversions and defaults; keys without patterns", "why_tests_cant": "Quantifies over all stores and lookups.", "anchors": ["radix/cvter.go: GetKibiBytes, GetKiloBytes"]}
{"id": "C106", "title": "SmartParseTime uses the first layout that fits", "statement": "SmartParseTime returns the time of the first known layout that fits, or the error of the last one; layouts added later count exactly for the texts that fit none of the earlier ones.", "quantifier": "all texts, layout lists and parsers", "why_tests_cant": "Layouts overlap; which one decides depends on text and list.", "anchors": ["internal/times/time.go: SmartParseTime, AddKnownTimeFormats"]}
{"id": "C107", "title": "Load, change, Save, load again", "statement": "A store loaded from a file, changed and saved to that file is the same store when the file is loaded again.", "quantifier": "all files, stores and changes", "why_tests_cant": "A test saves and inspects one file; losing unmodified keys shows only when comparing whole stores for all histories.", "anchors": ["load.go: Save, tryWriteTo", "providers/file/file.go: Write"]}
{"id": "C108", "title": "What files hold", "statement": "After SaveAs a file holds exactly the leaves of the store, after Save exactly the modified ones; with writing disabled or an encoder that fails the file is unchanged and the error is reported; loading a missing file reports the error and leaves the tree as it is.", "quantifier": "all reachable trees with writable keys, handles without prefix and with an ASCII delimiter, all disks, file names and codecs that keep nested maps", "why_tests_cant": "Quantifies over all stores, disks and codecs.", "anchors": ["load.go: Save, SaveAs", "providers/file/file.go: Write, ReadBytes", "providers/fs/fs.go: ReadBytes"]}
{"id": "C109", "title": "hcl: every value is written or an error reported", "statement": "Marshal of the hcl codec writes every value of the map, or reports an error.", "quantifier": "all maps", "why_tests_cant": "The kinds of values and their nesting are unbounded; tests use values with a form in hcl.", "anchors": ["codecs/hcl/hcl.go: Marshal, ctyValue, fill"]}
{"id": "C110", "title": "What hcl Marshal writes", "statement": "For nested maps of booleans, integers, strings and non-empty lists of one kind, reading what Marshal writes gives the map back; whenever it returns all keys are there in the order of iteration; values without a form are written as null; a list of scalars loses its nil elements and Marshal panics exactly if none or elements of two kinds are left.", "quantifier": "all maps and lists", "why_tests_cant": "Induction over values of any depth.", "anchors": ["codecs/hcl/hcl.go: Marshal, ctyValue, fill"]}
{"id": "C111", "title": "hjson: UnmarshalEx keeps every value", "statement": "The map UnmarshalEx of the hjson codec makes has every value of the document.", "quantifier": "all documents", "why_tests_cant": "The loss depends on the shape of the document.", "anchors": ["codecs/hjson/hjson.go: UnmarshalEx, decode"]}
{"id": "C112", "title": "What hjson UnmarshalEx has at every path", "statement": "For documents with distinct keys and without arrays (with arrays, if they are not flattened) UnmarshalEx has at every path exactly the value, description and comment of the node there, and nothing where the document has nothing; a flattened array keeps its last element only, under the empty key.", "quantifier": "all documents and all paths", "why_tests_cant": "Documents and paths are unbounded.", "anchors": ["codecs/hjson/hjson.go: UnmarshalEx, decode"]}
{"id": "C113", "title": "Dump shows every key and reports no wrong path", "statement": "The text of Dump contains, for each key that has data, the key and its value, and no line reports a path that does not fit the stored full path.", "quantifier": "all reachable stores, all keys, all renderings of values and colours", "why_tests_cant": "Tests compare the dump of one store; the keys it garbles are multi-byte branches and the empty key.", "anchors": ["radix/node.go: dump, dumpR", "radix/trie.go: Dump"]}
{"id": "C114", "title": "What Dump shows", "statement": "Dump writes exactly one line for each node below the root, in the order of Walk, indented by its depth. Every ASCII key, and every leaf of a store of valid UTF-8 keys, that has data is shown with its kind, full name and value, and such lines report no wrong path.", "quantifier": "all reachable stores, all renderings of values and colours", "why_tests_cant": "Quantifies over all trees.", "anchors": ["radix/node.go: dump, dumpR"]}
{"id": "C115", "title": "MarshalJSON writes JSON", "statement": "MarshalJSON of a store or trie writes a JSON text.", "quantifier": "all prefixes, delimiters and modes", "why_tests_cant": "Tests use prefixes and delimiters without special characters; strconv.Quote and JSON agree on those.", "anchors": ["store.go: MarshalJSON", "radix/trie.go: MarshalJSON"]}
{"id": "C116", "title": "When MarshalJSON writes JSON, and which", "statement": "MarshalJSON of a store writes JSON exactly if the prefix is valid UTF-8 without \\a, \\v, other control characters that have no short escape, DEL and unprintable runes beyond 0xFFFF, and the delimiter is neither quote, backslash nor control character; a reader then finds prefix, delimiter and mode as they are.", "quantifier": "all prefixes, delimiters and modes, any set of printable runes outside ASCII", "why_tests_cant": "The difference between Go's and JSON's quoting is in a few runes among all.", "anchors": ["store.go: MarshalJSON", "radix/trie.go: MarshalJSON, RecusiveMode.String"]}
{"id": "C117", "title": "The tree behind pointers and slices is the tree of the model", "statement": "Set, the assignments to a node, remove and Dup, executed access by access on memory with nodes behind pointers and children in slices over arrays, leave in memory exactly the tree the tree model computes; the children of two nodes never share an array, so no change shows up in another node, in another tree or in a copy.", "quantifier": "all memories that hold a tree, all keys and values, all growth policies of append", "why_tests_cant": "Aliasing of slices after append, split and in-place removal depends on spare capacity; tests see only the capacities they happen to produce.", "anchors": ["radix/node.go: insertInternal, split, insertAsLeaf, matchChildren, remove, Dup, walk"]}
{"id": "C118", "title": "Keys may be removed while the tree is walked", "statement": "Removing keys in the callback of Walk does not make Walk skip or repeat keys that remain.", "quantifier": "all trees, all removed keys", "why_tests_cant": "Needs a walk over a slice that is edited in place; depends on the position of the removed child.", "anchors": ["radix/node.go: remove, walk"]}
{"id": "C119", "title": "Keys may be set while the tree is walked", "statement": "If the callback of Walk sets any keys it likes, Walk does not panic and, if it returns (a callback that always sets new keys below may keep it going), visits each node that was there at the start exactly once and in the order it would without the Sets; the tree stays well-formed.", "quantifier": "all trees, all callbacks that set keys, all growth policies of append", "why_tests_cant": "Quantifies over all callbacks, trees and capacities; splits move children while they are iterated.", "anchors": ["radix/node.go: walk, insertInternal, split, insertAsLeaf"]}
{"id": "C120", "title": "Goroutines may set different keys at the same time", "statement": "If two goroutines set two different keys of one store and both return, the store has both keys.", "quantifier": "all interleavings of memory accesses", "why_tests_cant": "Interleavings are chosen by the scheduler; a test sees a few.", "anchors": ["radix/node.go: insertInternal, insertAsLeaf", "store.go: Set"]}
{"id": "C121", "title": "Goroutines that overwrite keys that exist", "statement": "If any number of goroutines only Set keys that exist, then in any interleaving no goroutine panics, the shape of the tree stays, each value is the initial one or one written to its key, and when all are done each key written to has one of the values written to it.", "quantifier": "all trees, all job lists, all interleavings of memory accesses that are atomic for each field", "why_tests_cant": "Quantifies over all schedules.", "anchors": ["radix/node.go: insertInternal, matchChildren"]}
{"id": "C122", "title": "SetTTL arms one timer and returns", "statement": "In every schedule of calls, expiries and closes, SetTTL on a key returns and arms exactly one timer for the node of this key (none if the duration is below 200ns), on anything else it changes nothing; a timer whose manager was not closed can always go on to its expiry.", "quantifier": "all worlds reached by any schedule, all paths, handles and durations; keys without patterns", "why_tests_cant": "Needs the invariant that every manager in use runs and belongs to one trie, over all histories of Close, views and copies.", "anchors": ["radix/trie.go: SetTTL, TTL.Add, TTL.run, Close, dupS"]}
{"id": "C123", "title": "SetTTL, Close and views may be used by several goroutines", "statement": "Calls of SetTTL, Close and WithPrefix on one trie that run at the same time neither panic nor block for ever.", "quantifier": "all interleavings", "why_tests_cant": "The windows are a few instructions wide.", "anchors": ["radix/trie.go: SetTTL, Close, dupS"]}
{"id": "C124", "title": "SetTTL from several goroutines once one call has returned", "statement": "Once one SetTTL has returned, calls of SetTTL, Close and WithPrefix at the same time do not panic; without Close each call can finish by itself at any time.", "quantifier": "all numbers of goroutines, all interleavings (sequentially consistent)", "why_tests_cant": "Quantifies over all schedules.", "anchors": ["radix/trie.go: SetTTL, Close, dupS, TTL.run"]}
{"id": "C125", "title": "The lock of a node keeps readers and writers of its value apart", "statement": "However SetTTL, SetData, Get and the expiry of a timer interleave on one node, at most one of them is writing the value, nobody reads it meanwhile, and no lock is released that was not taken.", "quantifier": "all numbers of goroutines, all interleavings", "why_tests_cant": "The windows are a few instructions wide; the race detector sees only schedules that happen.", "anchors": ["radix/node.go: lockFor, readLockFor, SetData, SetEmpty", "radix/trie.go: TTL.Add, Query"]}
{"id": "C126", "title": "Dump returns while the store is in use", "statement": "Dump of a tree with time-to-live nodes returns even if other goroutines get or set values meanwhile.", "quantifier": "all interleavings", "why_tests_cant": "The deadlock needs a Get between two instructions of Dump.", "anchors": ["radix/node.go: dumpR, Data, readLockFor"]}
{"id": "C127", "title": "A node with a lock: exclusion, no crash, no deadlock", "statement": "Once a node has its lock, any number of SetData, SetEmpty, Get, Data, Dump and SetTTL at the same time on it never crash and who writes is alone inside; if nobody dumps, or nobody but Dump and Data run, all of them can always still finish.", "quantifier": "all numbers of goroutines, all interleavings (sequentially consistent)", "why_tests_cant": "Quantifies over all schedules of any number of goroutines.", "anchors": ["radix/node.go: lockFor, readLockFor, SetData, SetEmpty, Data, dumpR", "radix/trie.go: TTL.Add, Query, getNode"]}
{"id": "C128", "title": "Query on the tree in memory", "statement": "search and Query, executed access by access on the nodes and slices in memory, give exactly what they give on the tree of the model, patterns and recursive mode included, and change nothing in memory.", "quantifier": "all memories that hold a tree, all handles and paths", "why_tests_cant": "Ties the pointer code to the tree for which everything else is proved; needs an induction over all trees.", "anchors": ["radix/node.go: matchR, search", "radix/trie.go: search, Query"]}
{"id": "C129", "title": "Get of a key while another goroutine sets another key", "statement": "Get of a key that exists gives its value whatever another goroutine sets meanwhile at other keys.", "quantifier": "all interleavings of memory accesses", "why_tests_cant": "The windows are single instructions.", "anchors": ["radix/node.go: matchR, split", "radix/trie.go: Query"]}
{"id": "C130", "title": "Get while other goroutines overwrite keys that exist", "statement": "While any number of goroutines Set keys that exist, any number of Gets never panic, find exactly the paths they find without the Sets, and give the value that was there or one of those set to this very key.", "quantifier": "all trees, all job lists, all handles and paths, all interleavings of memory accesses that are atomic for each field", "why_tests_cant": "Quantifies over all schedules.", "anchors": ["radix/node.go: matchR, insertInternal", "radix/trie.go: Query"]}
{"id": "C131", "title": "Remove on the tree in memory", "statement": "RemoveEx, executed access by access on the nodes and slices in memory, reports what it reports on the tree of the model and leaves a memory that holds exactly the tree the model leaves; other trees in memory (copies) are untouched.", "quantifier": "all memories that hold a tree, all growth policies, all handles and paths", "why_tests_cant": "The removal shifts elements in place in an array; that no other node sees the shifted array needs the ownership invariant.", "anchors": ["radix/trie.go: RemoveEx", "radix/node.go: remove"]}
{"id": "C132", "title": "Get while another goroutine removes", "statement": "While one goroutine removes a key, Get of another key finds it, and Get of the removed key gives its value or reports that it is missing.", "quantifier": "all interleavings of memory accesses", "why_tests_cant": "The windows are single instructions.", "anchors": ["radix/node.go: matchR, remove", "radix/trie.go: Query, RemoveEx"]}
{"id": "C133", "title": "What Get may see while others remove", "statement": "While any number of goroutines remove any paths, a Get never panics and never loops; what it gives is that there is no such key, or the answer for its path as without the removals, or the answer for a key that is a proper prefix of the path.  The memory always holds a tree whose entries are all entries of the first tree, with all their attributes.", "quantifier": "all trees reached by API calls on patternless keys, all lists of removals and gets, all growth policies, all interleavings of memory accesses that are atomic for each field", "why_tests_cant": "Quantifies over all schedules.", "anchors": ["radix/node.go: matchR, remove", "radix/trie.go: Query, RemoveEx"]}
{"id": "C134", "title": "Remove while others change the tree", "statement": "Goroutines that remove keys, or remove one key and set another, at the same time leave the tree as if they had run one after the other, and do not panic.", "quantifier": "all interleavings of memory accesses", "why_tests_cant": "The windows are single instructions.", "anchors": ["radix/node.go: remove, insertAsLeaf", "radix/trie.go: RemoveEx, Set"]}
{"id": "C135", "title": "Walk while other goroutines overwrite keys", "statement": "Walk, executed access by access, shows the callback exactly the nodes that Walk visits on the tree of the model.  While other goroutines overwrite keys that exist, it still shows the same nodes in the same order, so each key once, each with its key, fragment and kind, and with its value or one that a goroutine writes to this very key; nobody panics.", "quantifier": "all trees in memory, all handles and paths, all lists of overwriting and walking goroutines, all interleavings of memory accesses", "why_tests_cant": "All interleavings of any number of goroutines on any tree.", "anchors": ["radix/node.go: walk", "radix/trie.go: Walk", "radix/cvter.go: getM"]}
{"id": "C136", "title": "Walk while another goroutine sets a new key", "statement": "While another goroutine sets a new key, Walk shows each key that was there once, with its value, and no key that is neither there before nor after.", "quantifier": "all interleavings of memory accesses", "why_tests_cant": "The windows are single instructions of the split.", "anchors": ["radix/node.go: walk, insertInternal, split"]}
{"id": "C137", "title": "Walk while another goroutine removes a key", "statement": "While another goroutine removes a key, Walk shows every other key once.", "quantifier": "all interleavings of memory accesses", "why_tests_cant": "Elements are shifted in the array the walk is iterating over.", "anchors": ["radix/node.go: walk, remove"]}
{"id": "C138", "title": "What Walk may show while others remove", "statement": "While any number of goroutines remove any paths, a Walk never panics and never loops; what it shows is nothing, or a node of the first tree (the root for the empty path) followed by nodes below it, each with the key, fragment, kind and value it has in the first tree.", "quantifier": "all trees reached by API calls on patternless keys, all lists of removing and walking goroutines, all interleavings", "why_tests_cant": "Universally quantified over trees and interleavings.", "anchors": ["radix/node.go: walk, remove", "radix/trie.go: Walk, RemoveEx"]}
{"id": "C139", "title": "Joins in parallel through the shared pool of buffers", "statement": "Whatever the pool gives and drops and however the goroutines interleave, each Join, WithPrefix join, UsePool call and store join returns the join of its own arguments, within a bounded number of its own steps; the buffers in the pool are empty and no buffer is in the pool twice.", "quantifier": "all lists of goroutines, all lists of jobs, all delimiters and arguments, all interleavings byte by byte, all behaviours of sync.Pool and all capacities", "why_tests_cant": "The pool hands out buffers as it likes; a buffer that is put back too early or dirty corrupts a path only under some interleavings.", "anchors": ["radix/trie.go: prefixJointPool, poolGet, deferPoolGet, UsePool, join1, Join", "store.go: prefixJointPool, join"]}
{"id": "C140", "title": "Searches in parallel through the shared pool of match contexts", "statement": "Contexts are put back as they are; still every read of the delimiter by a search gives the delimiter of the handle that searches, and every search ends with its own context work within a bounded number of its own steps.", "quantifier": "all lists of goroutines, all lists of searches with any delimiters, all interleavings, all behaviours of sync.Pool", "why_tests_cant": "Two handles with different delimiters have to get the same dirty context.", "anchors": ["radix/trie.go: getMatchCtx, putBack, matchCtxPool, search"]}
{"id": "C141", "title": "Lookups, SetTag and overwriting Set are linearizable", "statement": "Goroutines call Get, Has, HasPart, GetDesc, GetComment, GetTag, SetTag and Set (of keys that exist) again and again on one tree, memory access by memory access in any order.  Every sequence of calls and replies that can be seen is one of the tree on which each operation takes effect at one moment between its call and its reply; no goroutine panics; whenever no call is in progress the memory holds exactly the tree after those operations.", "quantifier": "all trees reached by calls without patterns, all numbers of goroutines, all lists of calls through any handles, all interleavings of single memory accesses, all growth policies of append", "why_tests_cant": "Linearizability quantifies over all interleavings and asks for an order that explains each; a test sees a few interleavings of a few calls.", "anchors": ["radix/trie.go: Query, search, Has, HasPart, GetDesc, GetComment, GetTag, getNodeFast, Set, SetTag", "radix/node.go: insertInternal, matchR"]}
{"id": "C142", "title": "Old values reported by concurrent setters", "statement": "The values that SetEx reports as replaced are linearizable too: of two concurrent SetEx of one key, one reports the value the other stored.", "quantifier": "all interleavings of SetEx calls of existing keys", "why_tests_cant": "Needs both goroutines between reading and writing the same field.", "anchors": ["radix/trie.go: Query, search, Set, SetEx", "radix/node.go: insertInternal, matchR"]}
{"id": "C143", "title": "Lookups, SetTag and overwriting Set are wait-free", "statement": "On a tree no key of which has a lifetime (so no node has a lock), a goroutine that is given a turn again and again finishes all its calls of Get, Has, HasPart, GetDesc, GetComment, GetTag, SetTag and of Set (of keys that exist), whatever the others do, even if they stop for ever in the middle of a call.", "quantifier": "all infinite schedules in which the goroutine occurs infinitely often, all trees without patterns, all lists of calls of all goroutines", "why_tests_cant": "Termination under all infinite schedules cannot be tested.", "anchors": ["radix/trie.go: Query, search, Set, SetEx", "radix/node.go: insertInternal, matchR"]}
{"id": "C144", "title": "Get beside Set of a new key", "statement": "Get and Set are linearizable also when new keys are stored: a key that is there all the time is found by every Get.", "quantifier": "all interleavings of Get and Set calls", "why_tests_cant": "Needs the reader between the writes of a split.", "anchors": ["radix/trie.go: Query, search, Set, SetEx", "radix/node.go: insertInternal, matchR"]}
{"id": "C145", "title": "SetComment beside SetComment", "statement": "SetComment is linearizable beside the lookups: the description and the comment of a key, read after two concurrent calls of SetComment, are those of one of the calls.", "quantifier": "all interleavings of SetComment and the lookups of keys that exist", "why_tests_cant": "Needs one goroutine between the writes of the two fields of the other.", "anchors": ["radix/trie.go: SetComment, Update, Get, GetDesc, GetComment", "radix/node.go: insertInternal, SetData"]}
{"id": "C146", "title": "Concurrent updates of one key", "statement": "Update is linearizable: of two concurrent calls whose callback stores a function of the old value, the second gets what the first stored, so that no update is lost.", "quantifier": "all interleavings of Update and Get of keys that exist", "why_tests_cant": "Needs one goroutine between the moment the other takes the old value and its SetData.", "anchors": ["radix/trie.go: SetComment, Update, Get, GetDesc, GetComment", "radix/node.go: insertInternal, SetData"]}
{"id": "C147", "title": "Get beside Update", "statement": "A Get beside an Update of a key that has a value sees the old value or the new one.", "quantifier": "all interleavings of Update and Get of keys that exist", "why_tests_cant": "Needs the reader between the two writes of Update.", "anchors": ["radix/trie.go: SetComment, Update, Get, GetDesc, GetComment", "radix/node.go: insertInternal, SetData"]}
{"id": "C148", "title": "Fractions of a duration are within a nanosecond", "statement": "A text of terms with fractions of any length parses to the sum of the terms' values, each rounded down to whole nanoseconds and off by at most one nanosecond (not at all when the unit is a multiple of the fraction's last place).", "quantifier": "all lists of terms, all fractions of any number of digits, all units", "why_tests_cant": "Float64 rounding errors depend on every digit; a bound has to hold for all of infinitely many digit strings.", "anchors": ["internal/times/dur.go: ParseDuration, leadingFraction"]}
{"id": "C149", "title": "Trailing zeros of a fraction do not matter", "statement": "Two duration texts that differ only in trailing zeros of a fraction parse to the same duration.", "quantifier": "all terms and numbers of zeros", "why_tests_cant": "Needs the zeros for which unit/10^k is rounded down in float64.", "anchors": ["internal/times/dur.go: ParseDuration, leadingFraction"]}
{"id": "C150", "title": "Dup beside overwriting Sets", "statement": "Any number of Dups beside any number of goroutines that overwrite existing keys, interleaved access by access: nobody panics, the tree keeps its keys, and every copy has exactly the keys of the tree, with a copy of the old value or of one that was set for that key, and shares no node with the tree or with another copy.", "quantifier": "all trees, all jobs on existing keys, all numbers of copies, all interleavings of single memory accesses", "why_tests_cant": "The number of interleavings of the accesses of several goroutines is beyond testing; the race detector only reports that accesses race, not what may come of it.", "anchors": ["radix/node.go: Dup", "radix/trie.go: Dup", "store.go: Dup, Clone"]}
{"id": "C151", "title": "Dup is a snapshot", "statement": "The values in a copy made by Dup are those the tree had at one moment.", "quantifier": "all trees, all concurrent Sets, all interleavings", "why_tests_cant": "Needs one particular interleaving of Dup and two Sets.", "anchors": ["radix/node.go: Dup"]}
{"id": "C152", "title": "Dup beside new and removed keys", "statement": "A key that no other goroutine touches is in a copy made by Dup, once and with its value.", "quantifier": "all trees, all concurrent Sets of new keys and Removes, all interleavings", "why_tests_cant": "Needs particular interleavings of Dup with the steps of split and remove.", "anchors": ["radix/node.go: Dup, split, remove"]}
{"id": "C153", "title": "Goroutines that set keys in sections of their own", "statement": "If each of any number of goroutines sets keys, existing or new, only below a node of its own that exists from the start, and none of these nodes lies below another, then in any interleaving nobody panics, and when all are done the tree is, up to the addresses of nodes, the one that results from doing the jobs one after the other, in any order. If every goroutine gets a turn again and again, all come to an end.", "quantifier": "all trees, all choices of nodes, all jobs, all growth policies of append, all interleavings of single memory accesses", "why_tests_cant": "Quantifies over all interleavings of splits, appends and lookups by any number of goroutines; the race detector does not tell whether what is read matters.", "anchors": ["radix/node.go: insertInternal, split, insertAsLeaf, matchChildren", "store.go: Set"]}
{"id": "C154", "title": "Goroutines that set keys in new sections of their own", "statement": "If goroutines set keys under prefixes of their own, none of which begins with another, no key is lost.", "quantifier": "all trees, all prefixes, all jobs, all interleavings", "why_tests_cant": "Needs one particular interleaving of two appends to the same slice of children.", "anchors": ["radix/node.go: insertInternal, insertAsLeaf"]}
{"id": "C155", "title": "Exports while other goroutines overwrite values", "statement": "While any number of goroutines set existing keys, GetR, GetM and To never break: each answer is the one of a store that results from the first one by some of these Sets; a filter given to GetM or To is asked about values of such a store too, maybe another one. Exports that run beside each other only, give the answers of the store. If every goroutine gets a turn again and again, all come to an end.", "quantifier": "all trees, all handles, paths, options and filters, all jobs, all map orders, all interleavings of single memory accesses", "why_tests_cant": "Quantifies over all interleavings of walks with Sets by any number of goroutines.", "anchors": ["radix/cvter.go: GetR, GetM, To", "radix/node.go: walk", "radix/trie.go: Locate, search"]}
{"id": "C156", "title": "An export is a snapshot", "statement": "The map that GetM returns is the one it would return if it ran alone at one moment of the call.", "quantifier": "all trees, all concurrent Sets, all interleavings", "why_tests_cant": "Needs one particular interleaving of the walk with two Sets.", "anchors": ["radix/cvter.go: GetM"]}
{"id": "C157", "title": "A filtered export has only values that pass the filter", "statement": "Every value in the map that GetM with WithFilter returns is one that the filter accepts.", "quantifier": "all trees, all filters, all concurrent Sets of existing keys, all interleavings", "why_tests_cant": "The value has to change between the two reads of one node.", "anchors": ["radix/cvter.go: GetM, WithFilter"]}
{"id": "C158", "title": "Exports beside new and removed keys", "statement": "A key that no other goroutine touches is in the map that GetM returns, with its value.", "quantifier": "all trees, all concurrent Sets of new keys and Removes, all interleavings", "why_tests_cant": "Needs particular interleavings of the walk with the steps of split and remove.", "anchors": ["radix/cvter.go: GetM", "radix/node.go: walk, split, remove"]}
{"id": "C159", "title": "What WithPosition does to a Load", "statement": "Load(WithPosition(p)) puts what the provider delivers below the path p.", "quantifier": "all stores, trees, option lists, providers and positions", "why_tests_cant": "The claim is about every provider and every list of options.", "anchors": ["load.go: newLoader, WithPosition, Load", "providers/*: WithPosition, GetPosition, Read"]}
{"id": "C160", "title": "The options of a Load are for that Load only", "statement": "A Load is not affected by the codec and the position that an earlier Load of the same provider was given.", "quantifier": "all stores, trees, providers and lists of options", "why_tests_cant": "Needs all pairs of Loads.", "anchors": ["load.go: newLoader", "providers/*: WithCodec, WithPosition"]}
{"id": "C161", "title": "GetPosition returns what WithPosition set", "statement": "For every provider, GetPosition returns the position of the last WithPosition.", "quantifier": "all providers and positions", "why_tests_cant": "All providers in all settings.", "anchors": ["providers/*: GetPosition, WithPosition"]}
{"id": "C162", "title": "A dummy store answers as an empty one", "statement": "Every read of a dummy store gives what a new, empty store gives.", "quantifier": "all methods that read, all paths, prefixes, types and defaults", "why_tests_cant": "All paths and defaults.", "anchors": ["dummy.go", "radix/trie.go", "radix/cvter.go"]}
{"id": "C163", "title": "What a position is for each provider", "statement": "For env, flags, maps, file and fs, WithPosition changes nothing of the result of Load, whatever the other options and their order. For consul (recursive) and etcd (by prefix) Load stores exactly the pairs whose remote key begins with the position, under their normalized keys. A single consul key that does not exist makes Load panic.", "quantifier": "all stores, trees, lists of options, providers, remote contents and positions", "why_tests_cant": "All lists of options and all remote contents.", "anchors": ["load.go: newLoader, Load, tryLoad", "providers/consul/consul.go: Read", "providers/etcd/etcd.go: Read"]}
{"id": "C164", "title": "What Load leaves in a provider", "statement": "After a Load the provider has the codec and the position that the options named last, else those it had; options that name both are not affected by what earlier Loads left.", "quantifier": "all stores, trees, providers and lists of options", "why_tests_cant": "All lists of options and all pairs of Loads.", "anchors": ["load.go: newLoader", "providers/*: WithCodec, WithPosition"]}
{"id": "C165", "title": "What New makes of its options", "statement": "New gives an empty store whose delimiter, prefix, flatten and watch settings are those of the last option of the kind (else '.', none, off, off), whose handlers are all the given ones in the order given, in whatever order options of different kinds come; its first Set calls exactly the handlers for new keys, in that order.", "quantifier": "all lists of options, keys, values and environments", "why_tests_cant": "All lists and orders of options.", "anchors": ["store.go: newStore, WithDelimiter, WithPrefix, WithOnChangeHandlers, WithOnNewHandlers, WithOnDeleteHandlers, WithFlattenSlice, WithWatchEnable", "new.go: New"]}
{"id": "C166", "title": "A Clone of a store behaves as the store", "statement": "Clone and Dup of a store have its prefix, delimiter, mode, flags and handlers: what is done through the copy calls the handlers that the same call on the original calls.", "quantifier": "all stores, trees, keys, values", "why_tests_cant": "All states of the store, also while it loads.", "anchors": ["store.go: Clone, Dup, dupS"]}
{"id": "C167", "title": "The codec registered for an extension", "statement": "Codec answers with what the last Register or Deregister of the extension left, for an extension never mentioned with the codec of the built-in list; a call of what MustCodec returns panics exactly for extensions without a codec.", "quantifier": "all sequences of Register and Deregister, all extensions", "why_tests_cant": "All sequences of calls.", "anchors": ["codecs/all/all.go: suffixCodecMap, Register, Deregister, ExtCodecMap, Codec, MustCodec"]}
{"id": "C168", "title": "The codec of a file is found by its extension", "statement": "Codec(filepath.Ext(name)) is the codec of the file name, for every name whose extension is listed.", "quantifier": "all file names", "why_tests_cant": "All file names.", "anchors": ["codecs/all/all.go: Codec, suffixCodecMap"]}
{"id": "C169", "title": "New leaves the environment alone", "statement": "Making a store does not change what the environment provider offers.", "quantifier": "all environments, options of New, options of the provider", "why_tests_cant": "All environments and options.", "anchors": ["store.go: newStore", "providers/env/env.go: prepare"]}
{"id": "C170", "title": "Pretty json", "statement": "A json codec made WithPretty(true), as by default, writes indented text.", "quantifier": "all options, maps, and both functions of encoding/json", "why_tests_cant": "All maps.", "anchors": ["codecs/json/json.go: New, WithPretty, Marshal"]}
{"id": "C171", "title": "Set and Remove of the store in memory", "statement": "Run alone on a tree in memory, Set and Remove of a store handle leave in memory the tree that the model's Set and Remove give, with the same old value, result and calls of handlers; Set marks the node as modified through a read and a write of its type.", "quantifier": "all trees in memory, handles, keys, values and growth policies of append", "why_tests_cant": "All trees, handles and allocation behaviours.", "anchors": ["store.go: Set, setKV, tryOnSet, Remove, tryOnDelete", "radix/node.go: SetModified, insertInternal, remove"]}
{"id": "C172", "title": "Goroutines that call Set of the store on keys that exist", "statement": "If any number of goroutines Set keys that exist, through any handles of one store, then in any interleaving nobody panics, the shape of the tree stays, each call tells its handlers an old value that was there or was set by someone, nodes nobody sets keep value and type; under fair scheduling all return, and then each key set has one of the values set, flagged as data, and marked as modified unless its value was set within loading.", "quantifier": "all trees, handles, job lists and interleavings of single field accesses", "why_tests_cant": "Quantifies over all schedules.", "anchors": ["store.go: Set, setKV, tryOnSet", "radix/node.go: insertInternal, SetModified"]}
{"id": "C173", "title": "A new key is new only once", "statement": "If two goroutines Set a key that does not exist, the handlers for new keys are called for one of them only.", "quantifier": "all interleavings", "why_tests_cant": "Depends on the schedule.", "anchors": ["store.go: Set, setKV, tryOnSet"]}
{"id": "C174", "title": "Delete handlers tell what was removed", "statement": "If two goroutines Remove a key, the delete handlers are called for one of them only, and every key that goes is told.", "quantifier": "all interleavings", "why_tests_cant": "Depends on the schedule.", "anchors": ["store.go: Remove, tryOnDelete", "radix/node.go: remove"]}
{"id": "C175", "title": "A Set by a user leaves the key marked as modified", "statement": "After a user has Set a key that exists, the key is marked as modified, whatever other goroutines Set meanwhile, be it within loading.", "quantifier": "all interleavings", "why_tests_cant": "Depends on the schedule.", "anchors": ["store.go: setKV", "radix/node.go: SetModified, insertInternal"]}
{"id": "C176", "title": "Goroutines that work in sections of their own", "statement": "If each of any number of goroutines makes calls of Query, Has, HasPart, GetDesc, GetComment, GetTag, Set, SetEx, SetNode, SetEmpty, Update (whose callback calls any methods of the node that it is given), SetTag, SetComment and Remove, and methods of the nodes that Set returns, all about keys below a node of the tree that is its own (of two such nodes none is below the other), then in any interleaving nobody panics, every call replies what it replies when its goroutine works alone, and when all are done the tree is, up to addresses, what it is when they work one after the other in whatever order; under fair scheduling all return.", "quantifier": "all trees in memory, growth policies, lists of calls, sections and interleavings of single memory accesses", "why_tests_cant": "Quantifies over all schedules, all lists of calls and all trees.", "anchors": ["radix/trie.go: Set, SetEx, SetTag, SetComment, Query, Has, HasPart, Remove, RemoveEx", "radix/node.go: insert, insertInternal, split, remove, matchR"]}
{"id": "C177", "title": "Goroutines that use the store in sections of their own", "statement": "If each of any number of goroutines calls Set and Remove of the store (by handles with their own prefix, delimiter, handlers and loading flag) and the calls of C176, all about keys below a node of the tree that is its own, then in any interleaving nobody panics, every Set gives the old value and every Remove the answer that it gives when its goroutine works alone, the change handlers are called for the same keys with the same old and new values, and when all are done the tree, with the marks of modified keys, is up to addresses what it is when the goroutines work one after the other in whatever order; under fair scheduling all return.", "quantifier": "all trees in memory, growth policies, stores (handles, handlers, loading or not), lists of calls, sections and interleavings of single memory accesses", "why_tests_cant": "Quantifies over all schedules, all lists of calls and all trees; a handler that is told the wrong old value shows only in rare interleavings.", "anchors": ["store.go: Set, setKV, tryOnSet, Remove, RemoveEx, tryOnDelete", "radix/trie.go: Set, Query, RemoveEx", "radix/node.go: insertInternal, split, remove, SetModified"]}
{"id": "C178", "title": "GetM(path) through a handle with a prefix", "statement": "Through a handle with a prefix GetM(path) exports exactly the leaf keys below prefix+path. If every key has fewer segments below the path than prefix and path have together the result is the nested map of the values relative to the path; otherwise the code drops as many leading segments as prefix and path have (but never the last one), and the exact place of every value is stated. It is not the export that a handle without prefix gives for the joined path.", "quantifier": "all reachable stores without patterns, ASCII delimiters, prefixes, paths and filters", "why_tests_cant": "Component counting is wrong only for some depths and differs with a prefix; needs all depths.", "anchors": ["radix/cvter.go: GetM, prefixPutter.put, putKeys"]}
{"id": "C179", "title": "Sizes in the notations of Go literals", "statement": "ParseUint with base 0, which the size getters use, accepts exactly the integer literals of the Go specification (decimal, binary, octal with 0 or 0o, hexadecimal, underscores between digits). GetKibiBytes/GetKiloBytes give value*unit^k for every such literal with the k-th suffix - a leading zero means octal - except that a hexadecimal literal ending in e needs a blank before the suffix, and without a suffix one ending in b or e is misread.", "quantifier": "all texts, literals, suffixes and blanks", "why_tests_cant": "Infinitely many literals; the misread ones are rare.", "anchors": ["radix/cvter.go: FromKibiBytes, FromKiloBytes, fromKibiBytes, fromKilobytes"]}
{"id": "C180", "title": "Values are two words: Get beside Set", "statement": "If the goroutines only overwrite keys that exist, and every key keeps the type that its value has at the start, then Get and Set give the same results when values (interfaces: a type word and a data word) are read and written word by word as when they are read and written whole: every Get returns the value from the start or one that some goroutine sets. If a Set changes the type of the value a Get beside it can return the type of the old value with the data of the new one, a value nobody stored.", "quantifier": "all trees, jobs, ways to split accesses, schedules, and all ways to put a type word and a data word together", "why_tests_cant": "Torn reads need a switch between two machine words; the race detector only reports that the accesses race.", "anchors": ["radix/node.go: nodeS, insertInternal, Data", "radix/trie.go: Query"]}
{"id": "C181", "title": "Memory safety of goroutines beside each other", "statement": "Goroutines that do any calls on one tree at the same time (Get, Has, Query, Set, SetTag, SetComment, Update, Remove, Set and Remove of the store, Walk, GetM, GetR, To, Dup), on any keys, never read or write outside the array of a slice and never follow a pointer that is neither a node nor nil, as long as slice headers are read and written whole. They are three words: read word by word, a Get beside a Set of a new key reads past the end of an array.", "quantifier": "all memories reachable, any number of goroutines, calls and schedules, all choices of spare capacity", "why_tests_cant": "All interleavings of all calls; a read past the end of an array need not be noticed.", "anchors": ["radix/node.go: nodeS, insertAsLeaf, split, remove, matchR, walk, Dup", "radix/trie.go", "radix/cvter.go: GetM, GetR, To", "store.go: Set, Remove"]}
{"id": "C182", "title": "Watch and Close of the file provider", "statement": "Each goroutine that Watch starts calls its callback with what its events say, in order, and if it keeps running with nothing left out; without Close at most one of them, however often Watch is called, ever calls a callback; once Close was called while all goroutines were past their start, each calls its callback once more at most. After Close returns no callback is called; after Close, after the context ended or after the file was removed, a new Watch watches again and alone.", "quantifier": "all sequences of Watch, Close, ends of contexts, events of the directory and steps of the goroutines", "why_tests_cant": "Depends on which goroutine runs when; all interleavings and all event sequences.", "anchors": ["providers/file/file.go: Watch, watchRunner, Close"]}
{"id": "C183", "title": "Events of the watched file", "statement": "Whenever what the file provider's path leads to changes by something that happens in the watched directory, the event is taken as one of the file, and events of other files are not, for every way of writing the path (dots, double slashes, relative or absolute) and every arrangement of symbolic links in the directory.", "quantifier": "all paths, all directories with files and links, all writes and replacements of entries", "why_tests_cant": "All strings as paths; all link arrangements and histories of the directory.", "anchors": ["providers/file/file.go: Watch, watchRunner"]}
{"id": "C184", "title": "Watch and Close of the etcd provider", "statement": "Each goroutine that Watch starts calls its callback with every event of every response that comes while it listens, once and in order. After Watch returned no change is missed; after Close no callback is called and the goroutine ends.", "quantifier": "all sequences of Watch, Close, ends of contexts, changes and steps of the goroutines", "why_tests_cant": "Depends on which goroutine runs when; an endless loop shows only in all executions.", "anchors": ["providers/etcd/etcd.go: Watch, Close"]}
{"id": "C185", "title": "Watch and Close of the consul provider", "statement": "Each callback given to Watch is called with the results of the plan made for it, and after Close none is called any more.", "quantifier": "all sequences of Watch, Close, results of plans and steps of the goroutines", "why_tests_cant": "Depends on which goroutine runs when.", "anchors": ["providers/consul/consul.go: Watch, Close"]}
{"id": "C186", "title": "Exports of one's own section beside other goroutines", "statement": "If each of any number of goroutines keeps to a node of the tree that is its own (of two such nodes none is below the other), then GetR, GetM and To of one's own section give, in any interleaving, exactly the map that they give on the tree that the goroutine's own earlier calls leave when nobody else is there; in particular GetR of a key that is there gives exactly the keys below it, with their values, whatever the other goroutines set and remove elsewhere.", "quantifier": "all trees in memory, growth policies, jobs, sections, options, filters that do not look at addresses, orders of map iteration, and interleavings of single memory accesses", "why_tests_cant": "Quantifies over all schedules, all jobs of the other goroutines and all trees.", "anchors": ["radix/cvter.go: GetR, GetM, To", "radix/node.go: Walk, matchR, insertInternal, split, remove"]}
{"id": "C187", "title": "Updates in one's own section are not lost", "statement": "If each of any number of goroutines keeps to a node of the tree that is its own (of two such nodes none is below the other), then a goroutine that calls Update of one of its keys n times, each time with a callback that stores a function of the old value that it is given, and then Get, reads exactly that function applied n times to the value at the start (nil if the key was not there), in any interleaving and whatever the other goroutines set, update, remove and split elsewhere. (On one and the same key updates can be lost, C146.)", "quantifier": "all trees in memory without patterns, growth policies, functions, numbers of updates, jobs of the others, sections and interleavings of single memory accesses", "why_tests_cant": "Quantifies over all schedules, all functions and all jobs of the other goroutines; a lost update shows only in rare interleavings.", "anchors": ["radix/trie.go: Update, Query", "radix/node.go: insertInternal, split, SetData"]}
{"id": "C188", "title": "At most two nodes for each key ever written", "statement": "Whatever is written, overwritten, updated, removed and looked up through whatever handles, with or without patterns, the tree has at most 2n nodes if n > 0 different keys were ever written (one node, the root, if none), and the longest way down has at most one node more than the longest of these keys has runes. So writing the same keys again and again, and removing them in between, does not make the tree grow.", "quantifier": "all histories of calls through all handles, all lists that contain the keys written", "why_tests_cant": "Bounds the size of the tree after every history; tests see the size after a few.", "anchors": ["radix/node.go: insertInternal, split, remove", "radix/trie.go: Set, SetNode, SetEmpty, Update, Remove"]}
{"id": "C189", "title": "A tree whose keys have all been removed is small again", "statement": "After all keys that were written have been removed the number of nodes left is bounded by some constant.", "quantifier": "all histories after which no written key is there", "why_tests_cant": "The leak is one node for each pair of keys that once parted; a test that removes a few keys does not look at the nodes left.", "anchors": ["radix/node.go: remove", "radix/trie.go: RemoveEx"]}
{"id": "C190", "title": "The cost of a lookup depends on the key and its siblings only", "statement": "In a tree without patterns in which no node has more than F children, Query of a path of k runes through a handle that does not look upwards reads memory at most (k+2)(4F+6)+4 times, however many keys the tree has; a handle of BR() pays the same for each of the shorter paths it tries.", "quantifier": "all trees that histories without patterns leave, all memories that hold them, all handles, paths (present or not) and F", "why_tests_cant": "A bound on the work for all trees and paths; a test measures a few.", "anchors": ["radix/node.go: matchR", "radix/trie.go: search, Query"]}
{"id": "C191", "title": "The cost of Set depends on the key and its siblings only", "statement": "In a tree in which no node has more than F children, Set of a key of k runes reads and writes memory at most (k+2)(2F+2)+F+20 times, however many keys the tree has, whether the key is new, overwritten or splits a node, and whatever spare room append leaves.", "quantifier": "all trees in memory (with or without patterns), growth policies of append, keys, values and F", "why_tests_cant": "A bound on the work for all trees and keys; a test measures a few.", "anchors": ["radix/node.go: insertInternal, insertAsLeaf, split, matchChildren"]}
{"id": "C192", "title": "The cost of Remove depends on the key and its siblings only", "statement": "In a tree without patterns in which no node has more than F children, Remove of a key reads and writes memory at most (k+2)(4F+6) times for each path that is tried (k its length in runes; one path, or with BR() also the shorter ones), plus 2F+6, however many keys the tree has and however large the section is that is cut off.", "quantifier": "all reachable trees without patterns, growth policies of append, handles, paths and F", "why_tests_cant": "A bound on the work for all trees and keys; a test measures a few.", "anchors": ["radix/trie.go:568-587 RemoveEx", "radix/node.go:183-195 remove"]}
{"id": "C193", "title": "No call costs more the more keys there are", "statement": "No node has more children than there are different runes in the keys ever written. Therefore the number of memory accesses of Query, Set and Remove is bounded by an expression in the length of the key and the number of different runes alone, whatever the length of the history and the number of keys.", "quantifier": "all histories, alphabets that contain the keys written, handles without BR(), paths, values, growth policies", "why_tests_cant": "The bound is uniform in the number of keys; measurements stop at some size.", "anchors": ["radix/node.go: insertInternal, matchChildren, matchR", "radix/trie.go: Query, Set, RemoveEx"]}
{"id": "C194", "title": "With patterns too a lookup costs no more the more keys there are", "statement": "The bound of C193 on the memory accesses of Query, in the length of the path and the number of different runes, holds also for trees with patterns.", "quantifier": "all histories with any keys, all paths", "why_tests_cant": "The cost depends on how patterns and names are mixed on all levels; a benchmark with a few patterns shows nothing.", "anchors": ["radix/node.go:346-468 matchR"]}
{"id": "C195", "title": "With patterns the cost of a lookup is polynomial in the length of the path", "statement": "There is a polynomial in the length of the path and the number of different runes in the keys that bounds the memory accesses of Query for all trees, with patterns too.", "quantifier": "all histories with any keys, all paths; all polynomials", "why_tests_cant": "A measurement shows the cost for some depths; that no polynomial is enough is a statement about all depths.", "anchors": ["radix/node.go:346-468 matchR"]}
{"id": "C196", "title": "The tree never stores more text than was written", "statement": "The fragments of all nodes of a tree together have at most as many runes as the different keys written, and at most one rune for each different prefix of a key, however often keys are written, removed and written again.", "quantifier": "all histories of all calls on one tree, all handles", "why_tests_cant": "A sum over all nodes after any history; a test has one history, and a split that copied a rune would cost one rune in it.", "anchors": ["radix/node.go:203-256 insertInternal", "radix/node.go:258-290 split"]}
{"id": "C197", "title": "Keys away from the patterns behave as if there were no patterns", "statement": "As long as no path that is looked up meets a pattern (a ':' or '*' after a delimiter, where the path goes on with something else) of a key that is stored, every call of a history gives exactly the answers of a finite map from full paths to values, and the tree stays a proper tree that stands for this map. In particular a value just set under such a path is what the path looks up, whatever routes are stored beside it.", "quantifier": "all histories of all calls in which no path looked up meets a pattern of a key written, all handles and delimiters; all reachable trees and paths for the single Set and Query", "why_tests_cant": "It quantifies over all routes stored beside the keys and all histories; a test has one mixture, and a search that strays into a pattern does so only for particular neighbours and orders.", "anchors": ["radix/node.go:346-470 matchR", "radix/trie.go:702-800 Query, search", "radix/trie.go:388-610 Set, Remove, Get"]}
{"id": "C198", "title": "A key is found and lost under its own path only, unless a pattern of it is met", "statement": "Whatever a lookup finds is the value of a stored key; if the path looked up does not meet a pattern of this key, then the key is the path itself, or the path and the delimiter. A Remove takes away no key except those that the path is a prefix of, or that have a pattern which the path meets.", "quantifier": "all reachable trees, with any patterns, all handles and views, all paths", "why_tests_cant": "It says of every key in every tree that it is not answered for another path; a test asks a few paths of one tree.", "anchors": ["radix/node.go:346-470 matchR", "radix/trie.go:562-588 Remove, RemoveEx"]}
{"id": "C199", "title": "A stored key is what its own path looks up, also with patterns", "statement": "The path of a stored key looks up the value of this key, and a Remove of the path takes this key away.", "quantifier": "all reachable trees, with any patterns, all stored keys", "why_tests_cant": "Whether a pattern takes the path depends on which of the keys came first and on how their fragments were split since.", "anchors": ["radix/node.go:346-470 matchR", "radix/node.go:296-306 insertAsLeaf"]}
{"id": "C200", "title": "First come, first served", "statement": "A path that meets no pattern when it is set keeps looking up its own value for as long as its key stays in the tree, whatever routes, other keys and removals follow, also routes that match the path.", "quantifier": "all reachable trees, all paths that meet no pattern there, all later calls through any handles that leave the key in the tree", "why_tests_cant": "All later histories: each may split, merge or reorder the nodes on the way to the key.", "anchors": ["radix/node.go:203-306 insertInternal, split, insertAsLeaf", "radix/node.go:346-470 matchR", "radix/node.go:183-195 remove"]}
{"id": "C201", "title": "A route that was there first keeps the paths it matches", "statement": "When a route with a parameter or a wildcard is the only key on the way of a path that it matches, it answers for this path from then on for as long as it stays in the tree, also when the path itself or keys that share its beginning are set later: Query gives the value and the binding of the route, and Remove of the path removes the route and no other key. The only condition is that no other key with the same beginning up to and including the pattern rune is in the tree at the time of the lookup.", "quantifier": "all reachable trees, all routes, all paths of the route, all later calls through any handles that leave the route in the tree", "why_tests_cant": "All later histories and all keys set in them; the order of the children and the way fragments are split decide who answers.", "anchors": ["radix/node.go:203-306 insertInternal, split, insertAsLeaf", "radix/node.go:346-470 matchR", "radix/trie.go:562-588 Remove, RemoveEx"]}
{"id": "C202", "title": "A binding is a name out of a stored key and a piece of the path", "statement": "Whatever is stored, every parameter that Query reports has for name a piece without delimiters of a stored key, right after a ':' or '*' of this key, and for value a piece of a path that was tried: without delimiters after a ':', up to the end of the path after a '*'. The path meets a pattern of this key.", "quantifier": "for all trees, handles with a delimiter other than ':' and '*', paths, and every binding of the answer", "why_tests_cant": "The search backtracks over siblings, jumps inside a fragment and climbs; what it may put into the map has to be known for every key set and path.", "anchors": ["radix/node.go: extractor, matchR", "radix/trie.go: Query, search"]}
{"id": "C203", "title": "Only a ':' or '*' right after a delimiter is a pattern", "statement": "A ':' or '*' in the middle of a segment of a key is an ordinary character.", "quantifier": "for all key sets and paths", "why_tests_cant": "The flag for the last rune being a delimiter is passed on through matches and jumps; a test tries a few keys.", "anchors": ["radix/node.go: matchR"]}
{"id": "C204", "title": "The bindings belong to the key that is found", "statement": "Query reports only bindings of the key that it found, and none if it found nothing.", "quantifier": "for all key sets and paths", "why_tests_cant": "The map is filled while siblings are tried; only some orders of insertion show bindings of a sibling.", "anchors": ["radix/node.go: matchR", "radix/trie.go: Query"]}
{"id": "C205", "title": "Routes with different parameters in the same place", "statement": "Two routes that have parameters of different names in the same place are both found, as each of them is when it is alone.", "quantifier": "for all pairs of routes, other keys and paths", "why_tests_cant": "It depends on where the tree splits the keys; the tests store one name for each place.", "anchors": ["radix/node.go: insertInternal, split, extractor, matchR"]}
{"id": "C206", "title": "Routes with several parameters", "statement": "A route with any number of parameters, with fixed segments between them, that ends in a parameter or a wildcard answers for every path in which each parameter is replaced by a segment (the wildcard by a rest), whatever the lengths of the names and segments, and binds every name to its segment, in order. A route that goes on behind its last parameter answers exactly for those of these paths that are not longer than its key. The answers stay the same, and Remove of such a path removes the route and nothing else, for as long as the route stays in the tree and no other key shares its beginning up to the first pattern rune.", "quantifier": "for all numbers of parameters, names, separators and segments, for all stores with other keys that the path does not meet, for all later calls", "why_tests_cant": "The number of parameters and the lengths are unbounded; the condition depends on the sum of the lengths of all names and segments.", "anchors": ["radix/node.go: matchR (retriever), extractor", "radix/trie.go: Query, Remove"]}
{"id": "C207", "title": "Trees of routes", "statement": "In a store of routes that share beginnings in any way (a resource, its members, their parts and so on, with parameters in the same places under the same names), the path of each route is answered by the value of that route, with every name bound to its segment in order, and Remove of the path of a route that nothing extends removes that route and nothing else; provided the pieces of the route between two keys or branches on it are shorter than the rest of the path from there on, which segments at least as long as their names bring about for routes that end in a parameter or wildcard.", "quantifier": "for all reachable stores, routes in them with any number of parameters, other keys beside, above and below the route, and paths", "why_tests_cant": "Number and shape of the routes, and the way the tree splits them, are unbounded; whether a path is found depends on the lengths of all its segments and on where the other routes branch off.", "anchors": ["radix/node.go: matchR (retriever), extractor, matchChildren", "radix/trie.go: Query, Remove"]}
{"id": "C208", "title": "Paths too short for the middle of their route", "statement": "If a shorter route, or a branch, lies on the way and the rest of the path from there on is not longer than the piece of the key, the path is not found, with one exception: if it is exactly as long and the piece ends in a parameter, the path is answered by the shorter route, although it has more segments.", "quantifier": "for all reachable stores, routes, places on the route and paths", "why_tests_cant": "It depends on the lengths of names and segments and on where the tree has a node; the exception needs two lengths to be equal.", "anchors": ["radix/node.go: matchR (retriever)"]}
{"id": "C209", "title": "A path is not answered by a longer route", "statement": "A path is answered only by a route that has as many segments as the path, and Remove of a path removes no key that goes on behind it.", "quantifier": "for all reachable stores, routes and paths", "why_tests_cant": "The failure needs a route that goes on behind its last parameter, another that extends it, and a segment longer than the name.", "anchors": ["radix/node.go: matchR (retriever, matchChildren)", "radix/trie.go: Query, Remove"]}
{"id": "C210", "title": "Texts with other units are no sizes", "statement": "A text whose number is followed by something other than one of the documented units K, M, G, T, P, E (with an optional iB or B) is not taken for a size by FromKibiBytes/FromKiloBytes.", "quantifier": "for all numbers in the notations of Go literals, all runs of unit letters, blanks and tails", "why_tests_cant": "The texts are unboundedly many; the tests use documented units only.", "anchors": ["radix/cvter.go: FromKibiBytes, fromKibiBytes, FromKiloBytes, fromKilobytes"]}
{"id": "C211", "title": "Which byte strings are the same key", "statement": "A key is read as UTF-8 as the standard defines it: the encodings of scalar values one after the other, with every byte at which no encoding starts read as U+FFFD. Two byte strings are the same key exactly if they read the same: a value set under one is found under the other, lookups and removals do the same for both; otherwise setting one leaves the entry of the other as it is. Two well-formed keys are the same only if they are equal byte for byte.", "quantifier": "for all byte strings, stores, views and values", "why_tests_cant": "Byte strings are unboundedly many; the cases that matter are overlong forms, surrogates, truncated sequences and bytes beyond 0xF4.", "anchors": ["radix/trie.go: SetEx, search ([]rune conversions)", "radix/node.go: insertInternal (string conversions)"]}
{"id": "C212", "title": "Paths that go on behind their route", "statement": "A path that reads like a route and then goes on, where no stored key extends the route, is not found by Query, with one exception: if the last piece of the route in the tree ends in a parameter and is exactly as long as the rest of the path from there on, the path is answered by the route although it has more segments. If the route goes on behind its last parameter, Locate reports no node and no partial match.", "quantifier": "for all reachable stores, routes, continuations of a path and places where the tree splits the route", "why_tests_cant": "Number of segments, lengths of names and segments and the shape of the tree are unbounded; the exception needs two lengths to be equal.", "anchors": ["radix/node.go: matchR (retriever), extractor", "radix/trie.go: Query, Locate"]}
{"id": "C213", "title": "What the integer helpers read", "statement": "SmartParseInt answers a number without an error exactly for the integer literals of the Go specification, with or without a sign, whose number has 64 bits, and it is that number; a literal beyond that gives the nearest bound with an error, and an error leaves 0 or a bound. SmartParseUint does so for literals without a sign. A number written in decimal is read back. The variants without an error answer the number or the nearest bound.", "quantifier": "for all texts and numbers", "why_tests_cant": "Infinitely many texts: bases, underscores, signs and lengths; and the converse, that nothing else is accepted.", "anchors": ["internal/times/integers.go: SmartParseInt, MustSmartParseInt, SmartParseUint, MstSmartParseUint"]}
{"id": "C214", "title": "Texts that are no integers give 0", "statement": "MustSmartParseInt and MstSmartParseUint answer 0 for every text that is no integer literal.", "quantifier": "for all texts", "why_tests_cant": "The failure needs a text that starts with a number beyond 64 bits and is no literal only later on.", "anchors": ["internal/times/integers.go: SmartParseInt, MustSmartParseInt, SmartParseUint, MstSmartParseUint"]}
{"id": "C215", "title": "Typed getters report NotFound for a path never written", "statement": "A typed getter asked for a path that was never written, such as GetFloat64(\"app.dump.\") in the comment of ErrorIsNotFound, answers the default and a NotFound error.", "quantifier": "for all stores, paths, conversions and defaults", "why_tests_cant": "The failure needs keys that part right behind the delimiter of the path; the answer depends on all the other keys of the store.", "anchors": ["radix/cvter.go: GetFloat64, MustFloat64 (and the other typed getters)", "radix/trie.go: Query, search", "new.go: ErrorIsNotFound"]}
{"id": "C216", "title": "What typed getters answer for sections", "statement": "For a path that is no key while two keys behind it and the delimiter part right there, a typed getter answers the conversion of what the node of the section holds, without an error and without regard to the default. For a path that is a key of a branch it does so exactly when the path ends with the delimiter. After writes, a path that was never written and does not end with the delimiter is answered by the conversion of nil exactly when two written keys share exactly the path and the delimiter, and no two share exactly the path; otherwise by the default and NotFound.", "quantifier": "for all stores, histories of writes, paths, conversions and defaults", "why_tests_cant": "It is about all sets of keys that share beginnings, in any order of writing.", "anchors": ["radix/cvter.go: GetFloat64, MustFloat64 (and the other typed getters)", "radix/trie.go: Query, search", "new.go: ErrorIsNotFound"]}
{"id": "C217", "title": "An observer of the handlers can rebuild the data", "statement": "After any calls of Set and Remove on a store, an observer with a handler on new keys, one on changes and one on removals, who assigns what it is told and forgets, when told of a removal, every key that begins with the path told, has exactly the data of the store; and the old values it is told are those it had.", "quantifier": "for all stores, handlers, starting trees and sequences of calls", "why_tests_cant": "It is about all sequences of calls, with removals of sections, of forks and of paths that are no keys.", "anchors": ["store.go: Set, setKV, tryOnSet, Remove, tryOnDelete"]}
{"id": "C218", "title": "The recursive mode is for lookups only", "statement": "Through a recursive view (BR) only Get, Query, Locate and the getters look further up, as its comment says; Remove, SetTag and SetComment change nothing but the key they name.", "quantifier": "for all trees and paths", "why_tests_cant": "The failure needs a missing key whose last segment is a key further up.", "anchors": ["radix/trie.go: search, RemoveEx, SetTag, SetComment", "new.go: BR"]}
{"id": "C219", "title": "What changes through a recursive view do", "statement": "Through a recursive view, Remove, SetTag and SetComment take the first of the candidates of C27 that is a key: Remove removes exactly the keys that begin with it, SetTag and SetComment change exactly its tag or texts.", "quantifier": "for all trees, paths and values", "why_tests_cant": "It is about all trees and all lengths of paths.", "anchors": ["radix/trie.go: search, RemoveEx, SetTag, SetComment", "new.go: BR"]}
{"id": "C220", "title": "StartsWith tests the last path fragment by delimiter", "statement": "StartsWith(path, r) of a trie tells whether the last fragment of a present path, cut at the delimiter, begins with r, as the comment in the interface says; it does not depend on other keys.", "quantifier": "for all trees, present paths and runes", "why_tests_cant": "The fragment tested is the one of the node, and the nodes depend on all the other keys.", "anchors": ["radix/cvter.go: StartsWith, EndsWith", "radix/node.go: StartsWith, EndsWith", "radix/radix.go:26-27"]}
{"id": "C221", "title": "What StartsWith and EndsWith test", "statement": "For a key, StartsWith tests the rune that comes behind the longest shorter key that begins it, and EndsWith tests its last rune; for a section EndsWith tests the delimiter; for any other path both answer false.", "quantifier": "for all trees of keys without patterns, paths and runes", "why_tests_cant": "It is about all trees and the way they cut their keys.", "anchors": ["radix/cvter.go: StartsWith, EndsWith", "radix/node.go: StartsWith, EndsWith", "radix/radix.go:26-27"]}
{"id": "C222", "title": "Layers: a key has the value of the last source that has it", "statement": "After any sequence of Loads into one store, from maps or decoded files, below prefixes or not, some of which may fail, every key has the value of the last source that has it, or the value from before if none has it; no key is marked as modified, and descriptions, comments and tags stay.", "quantifier": "for all sequences of Loads, sources, options, stores and starting trees", "why_tests_cant": "It is about every number and order of sources with any overlap of their keys.", "anchors": ["load.go: Load, tryLoad, loadMap, loadMapDedicated, newLoader"]}
{"id": "C223", "title": "Loading everything once more changes nothing", "statement": "Loading the same sources in the same order once more leaves all data as it is.", "quantifier": "for all sequences of Loads without the option for flattening", "why_tests_cant": "It is about all sequences of sources.", "anchors": ["load.go: Load, tryLoad, loadMap, loadMapDedicated, newLoader"]}
{"id": "C224", "title": "WithStoreFlattenSlice is for the Load it is given to", "statement": "The option WithStoreFlattenSlice of one Load does not change what later Loads store.", "quantifier": "for all sequences of Loads", "why_tests_cant": "The failure needs a second Load with a slice in it.", "anchors": ["load.go: Load, tryLoad, loadMap, loadMapDedicated, newLoader", "load.go: WithStoreFlattenSlice"]}
{"id": "C225", "title": "Which flag for flattening a Load leaves", "statement": "A Load leaves the store with the last flag for flattening given before the first WithStorePrefix among its options, or with the flag it had; flags behind a prefix are gone with the Load. Prefix and delimiter of the store stay.", "quantifier": "for all stores and lists of options", "why_tests_cant": "It is about all orders of options.", "anchors": ["load.go: Load, tryLoad, loadMap, loadMapDedicated, newLoader", "load.go: WithStoreFlattenSlice, WithStorePrefix"]}
{"id": "C226", "title": "Several Merges: the last map that has a key decides, and a repetition changes nothing", "statement": "After any sequence of Merges by one store, at any paths, every key has the value of the last map that has it, or the value from before if none has it; exactly the keys of the maps are additionally marked as modified, none of them while loading. The same sequence once more leaves all data and marks as they are.", "quantifier": "for all stores, starting trees, and sequences of paths and nested maps", "why_tests_cant": "It is about every number and order of maps with any overlap of their keys.", "anchors": ["store.go: Merge", "load.go: loadMap"]}
{"id": "C227", "title": "Merges without a common key can change places", "statement": "If no scalar of one sequence of Merges goes to the same key as a scalar of another one, both orders of the two sequences leave the same data and marks.", "quantifier": "for all stores, starting trees, and pairs of sequences of Merges", "why_tests_cant": "It is about all pairs of maps, with sections in common or not.", "anchors": ["store.go: Merge", "load.go: loadMap"]}
{"id": "C228", "title": "A Merge whose keys are all merged again later leaves no trace", "statement": "If every key of a first sequence of Merges is among the keys of a second one, then both in turn leave the same data and marks as the second alone.", "quantifier": "for all stores, starting trees, and pairs of sequences of Merges", "why_tests_cant": "It is about all pairs of maps.", "anchors": ["store.go: Merge", "load.go: loadMap"]}
{"id": "C229", "title": "Walk visits sections as a whole, from above", "statement": "Walk(\"\") visits every node exactly once, a node before everything below it, and the nodes whose keys begin with any given text one right after the other.", "quantifier": "for all trees that calls can lead to and all texts", "why_tests_cant": "It is about the place of every node in every tree.", "anchors": ["radix/trie.go: Walk", "radix/node.go: insertInternal, split, matchChildren, walk"]}
{"id": "C230", "title": "Calls do not change the order of the keys", "statement": "No call changes the order in which Walk visits the keys that are there before and after it: writing calls only add keys in between, Remove only leaves keys out, other calls change nothing. After any history without Remove the earlier keys are in the order they had.", "quantifier": "for all trees, handles, calls and histories", "why_tests_cant": "It is about all positions of nodes that are split or extended.", "anchors": ["radix/trie.go: Walk", "radix/node.go: insertInternal, split, matchChildren, walk", "radix/trie.go: Remove, RemoveEx"]}
{"id": "C231", "title": "First written, first visited", "statement": "Of two sections that branch at the same point the one below which a key was written first is visited first, with all its keys, whatever is written later. A section that has no key while the other has one, be it that its keys were removed, comes behind the other when it gets keys.", "quantifier": "for all histories without Remove, all branch points and pairs of sections", "why_tests_cant": "It is about all orders of writing.", "anchors": ["radix/trie.go: Walk", "radix/node.go: insertInternal, split, matchChildren, walk"]}
{"id": "C232", "title": "The order of Walk is a matter of the keys", "statement": "Two stores with the same keys and values are walked (and so dumped and exported) in the same order.", "quantifier": "for all pairs of stores", "why_tests_cant": "A test with one order of writing cannot show it.", "anchors": ["radix/trie.go: Walk", "radix/node.go: insertInternal, split, matchChildren, walk"]}
{"id": "C233", "title": "Which of two nodes Walk visits first", "statement": "After any history without Remove, Walk visits node a before node b exactly if the key of a begins that of b, or the two keys part behind a common text and the first key ever written that goes on with the rune of a or of b there goes on with that of a.", "quantifier": "for all histories without Remove, through any handles, and all pairs of nodes", "why_tests_cant": "It is about every pair of nodes of every tree.", "anchors": ["radix/trie.go: Walk", "radix/node.go: insertInternal, insertAsLeaf, split, matchChildren, walk"]}
{"id": "C234", "title": "Only the order of the first writes counts for the order of Walk", "statement": "Two histories without Remove that write the same keys for the first time in the same order leave nodes in the same order, whatever they overwrite, through whatever handles and calls, with whatever values.", "quantifier": "for all pairs of histories without Remove", "why_tests_cant": "It relates all pairs of histories.", "anchors": ["radix/trie.go: Walk", "radix/node.go: insertInternal, insertAsLeaf, split, matchChildren, walk"]}
{"id": "C235", "title": "Overwriting a key does not move it", "statement": "A call that writes a key which is a node already, be it a branching point without data, or that does not write and is not Remove, leaves the order of all nodes as it is, and adds none.", "quantifier": "for all trees that calls can lead to, handles and calls", "why_tests_cant": "It is about all trees and keys.", "anchors": ["radix/trie.go: Walk", "radix/node.go: insertInternal, insertAsLeaf, split, matchChildren, walk"]}
{"id": "C236", "title": "Where a key that is written comes in the order of Walk", "statement": "The list of all keys in the order of Walk can be computed without the tree: the keys that share the longest text with a key that is written stand together in the list; the text is put in front of them and the key behind them, unless they are there. Other calls than writing ones leave the list, Remove leaves out the keys that are gone.", "quantifier": "for all trees that calls can lead to, handles, calls and histories without Remove, from any tree", "why_tests_cant": "It is an equation between the tree and a list for all histories.", "anchors": ["radix/trie.go: Walk", "radix/node.go: insertInternal, insertAsLeaf, split, matchChildren, walk"]}
{"id": "C237", "title": "The order of Walk after Merge and Load", "statement": "After Merge, several Merges, or a loop of Load over a map, the list of all keys in the order of Walk is the one before with the keys of the scalars put in (as in C236) in the order in which the map and the maps in it are iterated.", "quantifier": "for all stores, trees, paths, nested maps and iteration orders", "why_tests_cant": "It is about all nested maps and iteration orders; Go chooses one at random.", "anchors": ["store.go: Merge", "load.go: loadMap, loadMapAny, loadMapDedicated, loadMapByValueType, privateSetter", "radix/node.go: walk, dumpR"]}
{"id": "C238", "title": "The same map gives the same order of Walk and text of Dump", "statement": "Merging or loading the same map into equal stores gives stores that are walked in the same order and dumped as the same text.", "quantifier": "for all maps and iteration orders", "why_tests_cant": "A test run sees one iteration order of the map.", "anchors": ["store.go: Merge", "load.go: loadMap, loadMapAny, loadMapDedicated, loadMapByValueType, privateSetter", "radix/node.go: walk, dumpR"]}
{"id": "C239", "title": "The settings of a handle are its own", "statement": "The prefix, the delimiter and the mode of a store or a view change only by SetPrefix and SetDelimiter called on that very handle: whatever is set on the store it was made from, or on views made from it, it stays as it is. A new handle takes the delimiter of its maker.", "quantifier": "for all sequences of calls that make handles and change settings, on all handles made so far", "why_tests_cant": "It is about all sequences of calls over any number of handles and views of views.", "anchors": ["store.go: dupS, WithPrefix, WithPrefixReplaced, Dup, SetPrefix, N, R, BR", "radix/load.go: WithPrefix, WithPrefixReplaced, SetPrefix, N, R, BR", "radix/trie.go: dupS, SetDelimiter"]}
{"id": "C240", "title": "The settings of a handle of a dummy store are its own", "statement": "The prefix of a dummy store changes only by SetPrefix called on that very handle, not through a view that WithPrefix made from it.", "quantifier": "for all sequences of calls on the handles of a dummy store", "why_tests_cant": "The aliasing shows only when a view is changed and the original read.", "anchors": ["dummy.go: WithPrefix, WithPrefixReplaced, SetPrefix, Prefix"]}
{"id": "C241", "title": "Many views and copies: each tree is what the calls through its own handles make of it", "statement": "In any program that makes views and copies of a store, changes their settings and calls them in any order, the tree behind a handle and the answers of all handles that share it are those of one sequence of calls: those made through these handles, each with the settings its handle had then; a copy starts from the state at its Dup; calls through other handles change nothing. If the keys are plain, that is the behaviour of one map.", "quantifier": "for all programs over any number of handles and copies, all paths, values and settings", "why_tests_cant": "It is about all interleavings of calls through all families of handles.", "anchors": ["store.go: dupS, WithPrefix, WithPrefixReplaced, Dup, SetPrefix, N, R, BR", "radix/load.go: WithPrefix, WithPrefixReplaced, SetPrefix, N, R, BR", "radix/trie.go: dupS, Dup, SetDelimiter, Set, Get, Has, Remove, Query"]}
{"id": "C242", "title": "Get, MustGet and Has of a store answer as the map does, also after its own writes", "statement": "After any plain history, Get, MustGet and Has of a store answer what one map answers through the same prefix, delimiter and mode. After a Set of the store, while loading or not and with any handlers, MustGet gives the new value and Has is true; Get gives the value, and found unless longer keys exist below it. Every other existing key answers as before through every store on the tree.", "quantifier": "for all plain histories, stores, paths, values, handlers and other handles on the same tree", "why_tests_cant": "It is about every history and every pair of paths and handles.", "anchors": ["store.go: Get, MustGet, Has, Set, setKV", "radix/trie.go: Query, Search"]}
{"id": "C243", "title": "Any program of store calls behaves as one map with one rule for handlers", "statement": "For any program of Set, Remove, Get, MustGet and Has calls through any stores on one tree, each with its own prefix, delimiter, mode, loading flag, handlers and parents at the time of the call: all answers, all handler calls in their order with their arguments, and the final contents including descriptions and modified marks are those of one map and one rule for handlers. No call panics or runs forever.", "quantifier": "for all programs with plain keys, all stores, handlers and parents, from a new store or any reached one", "why_tests_cant": "It is about every sequence of calls through every mix of stores.", "anchors": ["store.go: Set, setKV, tryOnSet, Remove, tryOnDelete, Get, MustGet, Has", "radix/trie.go: Set, RemoveEx, Query, Search"]}
{"id": "C244", "title": "Loading flags, handlers and parents change only handler calls and modified marks", "statement": "Two programs that make the same calls through the same views, but with different loading flags, handlers and parents, get the same old values, removal results and reads, and end with the same keys, data, descriptions, comments and tags. Only the handler calls and the modified marks may differ.", "quantifier": "for all pairs of such programs with plain keys, from any reached store", "why_tests_cant": "It compares two runs of every program.", "anchors": ["store.go: Set, setKV, tryOnSet, Remove, tryOnDelete, inLoading"]}
