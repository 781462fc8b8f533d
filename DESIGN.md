# Formal model of HectorMRC/plotline in Rocq (Coq 8.16.1)

All sources are in `rocq/theories` (logical name `Verif`); only Coq's standard library is used.

| part | model (cites /repo line by line) | specification vocabulary | lemmas | properties |
|---|---|---|---|---|
| orders, `BTreeMap` | `Ord.v BTree.v` | | `OrdFacts.v BTreeFacts.v` | |
| graph | `Graph.v` | `SpecGraph.v` | `GraphFacts.v` | `P_Graph.v` C01-C05 |
| transactions, any interleaving of handles | `Tx.v TxMachine.v` | `SpecTx.v` | `TxFacts.v TxMachineFacts.v TxInv.v TxHist.v` | `P_Tx.v` C10-C14, C18-C20 |
| node proxies | `Proxy.v` | `SpecProxy.v` | `ProxyFacts.v` | `P_Proxy.v` C06-C09, C64 |
| node proxies shared between threads | `ProxyThreads.v` | `SpecProxyThreads.v` | `ProxyThreadsFacts.v` | `P_ProxyThreads.v` C82 |
| closures, triggers, guards, resources, Save, Delete | `Prog.v` | `SpecProg.v` | `ProgFacts.v ProgFrame.v ProgTx.v ProgOps.v ProgTerm.v ProgRes.v` | `P_Prog.v P_Ops.v P_Res.v` C14-C17, C21-C37, C67-C71, C83 |
| what runs publish and log | `ProgTrace.v` | `SpecTrace.v` | `TraceFacts.v TraceLeaks.v` | `P_Trace.v` C94-C98 |
| locks asked for, operations registered | `ProgEvents.v` | `SpecEvents.v` | `EventFacts.v EventProgs.v` | `P_Events.v` C99-C101 |
| what a program does not look at | `Prog.v ProgTrace.v ProgEvents.v` | `SpecAvoid.v` | `AvoidFacts.v` | `P_Avoid.v` C102-C104 |
| pending changes, replacing pieces of programs | `Prog.v` | `SpecPending.v` | `PendingFacts.v RewriteFacts.v` | `P_Pending.v` C106-C107 |
| programs over several schemas | `Multi.v` | `SpecMulti.v` | `MultiFacts.v` | `P_Multi.v` C109-C112 |
| lazy documents, threads | `Lazy.v` | `SpecLazy.v` | `LazyFacts.v` | `P_Lazy.v` C38-C40, C65, C66 |
| paths, repository, command line | `Path.v Cli.v` | `SpecCli.v` | `PathOrd.v PathFacts.v CliFacts.v` | `P_Cli.v` C41-C47, C72-C75; `SpecSpelling.v P_Spelling.v` C152 |
| characters in names (`to_string_lossy`) | `Utf8.v` | `SpecUtf8.v` | `Utf8Facts.v` | `P_Regex.v` C126 |
| regular expressions, `main` | `Regex.v CliMain.v` | `SpecRegex.v` | `RegexFacts.v` | `P_Regex.v` C84-C88, C126-C128; `P_Counts.v` C148, C149; `P_Escapes.v` C151 |
| arguments | `Args.v` | `SpecArgs.v` | `ArgsFacts.v` | `P_Args.v` C130-C133 |
| exit status, printed text | `CliMain.v` | `SpecMain.v` | | `P_Main.v` C92, C93, C108 |
| what the command line and lazy documents log | `Logs.v` | `SpecLogs.v` | | `P_Logs.v` C113, C114 |
| graphs of lazy documents: proxies and copies of nodes that load themselves | `LazyGraph.v` | `SpecLazyGraph.v` | `LazyGraphFacts.v` | `P_LazyGraph.v` C115, C116 |
| guards of the graph with any lifetime: kept, dropped in any order, leaked | `Guards.v` | `SpecGuards.v` | `GuardsFacts.v` | `P_Guards.v` C117-C119 |
| what becomes of nodes: published, waiting, dropped, given back | `Drops.v` | `SpecDrops.v` | `DropsFacts.v` | `P_Drops.v` C141 |
| user code that uses the schema, or panics, in the middle of calls | `Reenter.v` | `SpecReenter.v` | `ReenterFacts.v` | `P_Reenter.v` C142 |
| schemas of lazy documents, in transactions and guards | `LazySchema.v` | `SpecLazySchema.v` | `LazySchemaFacts.v` | `P_LazySchema.v` C143 |
| user code run by calls on contexts and by commits, poison of lists of operations | `UserCalls.v` | `SpecUserCalls.v` | `UserCallsFacts.v` | `P_UserCalls.v` C144 |
| what becomes of the nodes of a program | (`Drops.v`, `SpecCalls.v`) | `SpecProgDrops.v` | `ProgDropsFacts.v` | `P_ProgDrops.v` C145 |
| the standard output of `plot doc list`, failing writes | `Stdout.v` | `SpecStdout.v` | `StdoutFacts.v` | `P_Stdout.v` C146 |
| panics among guards and transactions of any lifetime, destructors that use the schema | `Unwind.v` | `SpecUnwind.v` | `UnwindFacts.v` | `P_Unwind.v` C123-C125 |
| commits broken off by a panic of user code, in any history | `Guards.v Unwind.v` | `SpecCrash.v` | `CrashFacts.v` | `P_Crash.v` C137 |
| programs against single calls | | `SpecCalls.v` | `CallsFacts.v CallsCells.v CallsProgs.v CallsDet.v` | `P_Calls.v` C136 |
| guards of targets and resources with any lifetime, in several threads, with panics | `Cells.v` | `SpecCells.v` | `CellsFacts.v` | `P_Cells.v` C120-C122 |
| interval tree | `Interval.v` | `SpecInterval.v` | `IntervalFacts.v` | `P_Interval.v` C48-C55, C61-C63, C80, C89-C91 |
| user code run by the interval tree, its panics | `TreeCalls.v` | `SpecTreeCalls.v` | `TreeCallsFacts.v` | `P_TreeCalls.v` C138, C139 |
| the same while a plugin writes its tree | `TreePanics.v` | `SpecTreePanics.v` | `TreePanicsFacts.v` | `P_TreePanics.v` C140 |
| every call of user code by the handlers of the plugin, and its panics | `PluginCalls.v` | `SpecPluginCalls.v` | `PluginCallsFacts.v` | `P_PluginCalls.v` C147 |
| the process from its arguments to its standard output | `Process.v` | `SpecArgs.v SpecMain.v SpecStdout.v` | | `P_Process.v` C150 |
| dates | `Date.v` | | `DateFacts.v` | `P_Date.v` C56-C58 |
| interval plugin | `Plugin.v` | `SpecPlugin.v` | `PluginFacts.v PluginScripts.v` | `P_Plugin.v` C59, C60, C76-C79, C81, C105; `P_Scripts.v` C129 |
| several plugins, their panics | `Plugin.v` | `SpecPlugins.v` | `PluginsFacts.v` | `P_Plugins.v` C134, C135 |

`Demo.v` and `DemoInterval.v` hold the concrete types of the examples; `RepoTests.v` runs the repository's own unit tests on the model.  In every `P_*.v` each property
theorem is followed by `Print Assumptions`, and an `Example Cnn_case` shows a concrete non-trivial case
meeting its hypotheses.  `MANIFEST.json` maps properties to theorems, `seeded/LOG.jsonl` records
the wrong programs the theorems were tested against.

## How the code is modelled

* **Traits with laws** (`Ord`, `Identify`, `Interval`): type class `OrdT` (a three-way comparison
  with its laws, `Equal` coinciding with equality) and plain functions. The laws appear as explicit arguments of the theorems.
* **`BTreeMap`** (std, not plotline): strictly sorted association list (`BTree.v`).
* **Transactions** (`Tx.v`): `Arc<RwLock<Vec<Operation>>>` is an address in a heap of operation
  lists; a `Context` is an immutable value naming its buffer, its parent and its target cell, exactly as in Rust.
  `get/contains/save/delete/commit` are functions over that heap.
* **Histories** (`TxMachine.v`): a state machine over events (open transaction, `Context::from`, save, delete,
  get, contains, commit, drop, schema read) on handles: this is how siblings open at the same time and
  contexts created outside `with` are covered.
* **User code** (`Prog.v`): closures and triggers are arbitrary programs of a free monad whose commands
  are the public API (plus panicking, catching a panic, external output, leaking a context). A fuelled
  interpreter `run` executes them; running out of fuel is `None` and never a normal result. Outcomes:
  return of `Ok`/`Err`, panic, or hang (self-deadlock on a lock held by the same thread / divergence).
  `Save::execute`, `Delete::execute`, trigger selection, `Transaction::with` for `Background` and
  `Foreground`, the guards, `Res`, `Target`, `With`/`WithMut` are transcribed in this language.
* **Histories of programs** (`ProgTrace.v`): a function along the recursion of `run` that lists publications, calls on guards with
  their answers, and errors logged, in order; also of runs that never end.
  `ProgEvents.v` lists likewise the requests for locks, guards obtained and dropped, and operations registered and merged.
* **Threads**: `Schema<T>` contains `Arc<RwLock<Box<dyn Any>>>` and `Box<dyn Trigger>`, so it is neither
  `Send` nor `Sync`: rustc rejects sharing a schema between threads and the schema model is
  single-threaded (locks matter only for re-entrancy and poisoning). `LazyDocument` is `Sync`; its races
  are modelled as an interleaving of atomic steps of any number of threads.
* **Interval tree**: an inductive binary tree; the non-structural recursion of `join` carries fuel and
  fuel exhaustion (stack overflow in Rust) is `None`.
* **CLI**: paths are lists of components, file names are lists of bytes; `Walk` is an arbitrary
  list of entries; the regex `\.{ext}$` is parsed and matched (`Regex.v`) for a fragment
  of the syntax of the crate `regex`: literals, escapes, `.`, `^`, `$`, `|`, groups, `*`, `+`, `?`, `{n,m}`, lazy marks,
  classes made of characters and ranges; it is matched against the characters of the name (`Utf8.v`), every longest
  piece of bytes that begins no complete character being U+FFFD.

## How each property is proved

| id | modelled in | how it is proved |
|---|---|---|
| C01-C05 | `BTree.v Graph.v` | refinement of sorted association lists to functions `Id -> option Node`, induction over the call list; canonical form of sorted lists for C05 |
| C06-C09 | `Proxy.v` | coherence of `get`/`contains` by induction on the parent chain; induction over access histories; C08 is false for contexts (cached absence): refuted by a witness, proved for graphs and fresh proxies |
| C10-C13, C19, C20 | `TxMachine.v` | refinement of the machine to overlay maps (simulation relation preserved by every event), invariants over all histories |
| C14-C18, C20-C23 | `Prog.v` | induction over interpreter fuel for all programs (frame lemma: buffers only grow, locks restored, graph frozen under a transaction); C21, C22 are false in general: refuted by witnesses, exact characterisations proved |
| C24-C32 | `Prog.v` | decomposition of runs of `Save`/`Delete` into phases for all trigger sets; C29, C32 refuted with witnesses plus the part that holds |
| C33-C37 | `Prog.v` | frame lemmas over cells; C36 refuted by a witness |
| C38 | `Lazy.v` | induction over access sequences |
| C39, C40 | `Lazy.v` | invariant over all schedules; C40 refuted by a schedule, exact characterisation proved |
| C41-C47 | `Path.v Cli.v` | string lemmas; C41, C44, C45, C46 refuted by witnesses plus the part that holds |
| C48-C55 | `Interval.v` | structural induction; C52, C53, C54 refuted by witnesses plus exact characterisations |
| C56-C58 | `Date.v` | induction over components |
| C59, C60 | `Plugin.v` | C59: the resource is registered under another type than the one looked up (`SearchTree<T, _>` against `SearchTree<T::Id, _>`), so nothing is ever indexed unless `T = T::Id`: refuted, proved for `T = T::Id`; C60 refuted (no rollback, stale intervals on overwrite) |
| C61-C63 | `Interval.v` | exact behaviour of `delete` as it is |
| C64-C71 | as C08, C40, C21, C22, C29, C32, C36 | exact versions of properties that turned out false |
| C72-C75 | `Path.v Cli.v` | likewise for C41, C44, C45, C46 |
| C76-C79, C81, C105 | `Plugin.v` | likewise for C59, C60 |
| C129 | `Plugin.v Prog.v` | induction over what a script does to a map; nested buffers related to the map by the chain of contexts |
| C134, C135 | `Plugin.v Prog.v` | the plugins as an interpreter over a map and the trees by type, shown to be what the triggers do; C134 replays each tree on its own |
| C136 | `Prog.v Unwind.v Cells.v` | relations between worlds and states of the two machines (graph and transactions; targets and resources), kept by every call; runs by induction on fuel, histories by induction on how the program plays |
| C80 | `Interval.v` | exact version of C54 |
| C83 | `Prog.v` | addresses of resources: registering allocates a fresh one |
| C84-C88, C126-C128, C148, C149, C151 | `Utf8.v Regex.v CliMain.v` | decoding is equivalent to a reading specified from the encoding only; the parser is equivalent to a grammar, the matcher to a relation; then computation of the pattern of each shape |
| C89-C91 | `Interval.v` | induction over insertions: stability, completeness above the query's lower bound, spines |
| C138, C139 | `TreeCalls.v` | the functions of `Interval.v` with the list of calls of user code they make; a panic cuts the list; histories by induction from the end |
| C140 | `TreePanics.v` | which calls of user code panic as the panics of `Plugin.v`; trees whose intervals and stored maxima are good are kept so by insertions and deletions; then C135's scripts |
| C130-C133 | `Args.v` | the parser is equivalent to a grammar, command by command; a path is named by an id iff its own text, `-` or its text with a `/` is one |
| C92, C93, C108 | `CliMain.v` | case analysis over commands with C47, C88; prefix-free pieces of literals, characters or bytes of none |
| C94-C98 | `ProgTrace.v` | induction over interpreter fuel: histories against a plain map; simulation between a program and the one without leaks |
| C99-C101 | `ProgEvents.v` | induction over interpreter fuel: requests and guards against a plain book of guards held; buffers against the operations listed |
| C102-C104 | as above | simulation between runs from states that differ in what is hidden |
| C106-C107 | as above, no crash during a commit | simulation between runs from states whose buffers denote the same changes |
| C109-C112 | `Multi.v` | induction over interpreter fuel: embedding of one-schema programs, projection of a run on each schema, frame of the schemas not used |
| C113, C114 | `Logs.v` | case analysis over items of the walk with C84's lemmas on paths; invariant over all schedules relating each call's log to where it stands |
| C115, C116 | `LazyGraph.v` | the documents evolve as in `Lazy.v`, so its facts carry over; invariants: each proxy has a document of its own; a document no call was made on keeps its cell |
| C117-C119 | `Guards.v` | the machine of transactions inside it makes exactly the steps of the erased history; invariants: readers and writers exclude each other and the holder of the graph; what was leaked is in the state for ever |
| C120-C122 | `Cells.v` | values are numbered by the order they were given; histories of handles, guards, drops, leaks and panics are matched with the state by induction from the end |
| C141 | `Drops.v` | every event of the machine of `Guards.v` conserves the nodes, place by place; buffers of leaked contexts and transactions are frozen by every event |
| C142 | `Reenter.v` | a stack of unfinished calls over the machine of `Guards.v`: either all are reads, which find what their context shows as long as what they have locked stays, or one is alone and changes a graph nobody else sees; each call is then simulated by one at once when it finishes |
| C143 | `LazySchema.v` | documents are handles, nodes of the machine of `Guards.v`; with what user code owns, waiting nodes and the graph partition the handles (by `conserves_step` of C141), so that the one cell of each can be reached from one place; content and ids are then functions of the history |
| C144 | `UserCalls.v` | each call of the API is code that makes single calls of user code, any of which may panic (a function of all calls before); reads reduce to a list of calls and an answer (`only`), commits to a list of calls and changes (`stepping`) |
| C145 | none of its own | the calls that a program makes on the graph (C136) form a history of `Guards.v`, for which C141 says where nodes are; `plays` gives the calls, `over` that no transaction is left open when the program comes back. User code of destructors is not run here (C144 has the calls of `Drop`). |
| C146 | `Stdout.v` | std's `LineWriter`/`BufWriter`/`StdoutRaw` down to single calls of `write(2)`, answered by any function of the calls before; the pieces in which std formats a line are any that make up the line, the capacity of the buffer any but 0. Invariant: what was written or waits is what was given so far, and nothing waits after a whole line. |
| C147 | `PluginCalls.v` | the handlers of the plugin with the list of the calls of user code they make, as `TreeCalls.v` for the tree; shown equal to what `Plugin.v` does in programs with the panics of these calls, then C135's scripts. Without destructors of ids and intervals. |
| C150 | `Process.v` | C130 for the arguments, C92 for the outcome and C146 for the output, put together |
| C152 | `Path.v Cli.v CliMain.v` | the components of a string are those of an id iff the string is in a grammar of spellings; then C47 and C84 |
| C137 | `Guards.v Unwind.v` | the state after the panic is the one after the drop and the writes; what was gathered is the journal of the erased history, kept equal to the buffer |
| C123-C125 | `Unwind.v` | layered over `Guards.v`, whose state it projects to; the poison, and who took the lock outside of a panic, are matched with the history by induction from the end |
| C82 | `ProxyThreads.v` | invariant over all schedules of the atomic steps of `OnceLock::get_or_init` |

A property that is false of the code keeps its statement and is claimed `partial`: a theorem
`Cnn_.._refuted` gives a witness, a theorem `Cnn_.._partial` the part that holds, with a comment
saying what is missing, and a further property states exactly what the code does.

## Findings (properties the code does not have)

* C08: a proxy over a context caches the absence of a node; `is_virtual` follows the source, so the two may
  disagree (exactly: C64).
* C21: user code (`Clone`, `Ord`, `Drop` of nodes or ids) panicking during a commit leaves a prefix
  applied (C67).
* C22, C29: `mem::forget` of a context makes `with` return `Ok` although nothing is committed (C68); a trigger
  that panics and is caught while it mutates the target poisons it, and `Save` returns `Ok` without saving (C69).
* C32: a trigger that saves in its own schedule never ends (C70: stratified triggers do).
* C36: resources are not rolled back (C71).
* C40: a thread that loses the race of loading a lazy document gets `None` for a document that is there (C65).
* C41, C44-C46: `with_extension` cuts ids with dots, nothing is written to disk, absolute ids and `..` escape the
  base directory, a loaded document's id is its full path (C72-C75).
* The extension is put unescaped in a regular expression: `md|txt` lists files it cannot load (C86), `tar.gz` lists
  `x.tar_gz` (C87), `(md` panics whatever the command (C88), `*` lists the base directory itself as a document.
  Escaping (`tar\.gz`) lists the right files and then opens none of them; `md\` lists names with `.md$` in them (C151).
* A base directory that is named like a document (`notes.md`) is logged as an error by every command; one that does not exist lists
  nothing, with status 0 (C113).  "document not found" is logged only about documents that were found (C114).
* A graph gives out copies, so reading a lazy document through `get` or a proxy never loads the one in the graph: each reader
  asks the repository again, and two readers of an unchanged graph may read different contents (C115).  Only iterating the
  graph loads for all (C116).
* C52-C54: `IntervalSearchTree::delete` of a node with two children recurses for ever (`join` splits a list of one
  element into none and one); a second interval with the same lower bound may hide the one to be
  deleted; maxima are not shrunk (C61-C63), which is the one cause of wrong negatives (C80).
* An empty search tree takes an interval without asking for its lower bound: if that panics, the node is saved and indexed, and the next save of
  any node with an interval panics and loses the index for good (C140).
* `insert` and `delete` take the root before they run code of users: if that panics the tree is empty afterwards (C138).  `for_each_intersection`
  never stops early on the right: it looks at every interval that begins after the query ends (C139).
* C59, C60: the plugin registers `SearchTree<T, _>` and looks up `SearchTree<T::Id, _>`, so it does nothing
  (C76); apart from that, rolled-back and overwriting saves leave stale intervals (C77, C78), and Delete may never return
  (C79); the tree is exactly the replay of all saves and deletes (C81), also
  in nested transactions, kept or not (C129); what it answers about the nodes in the graph (C105).
  Plugins with one type of intervals share one tree, which the second install empties (C134); a panic of
  user code during a write of the tree loses the tree for good, silently (C135).

* A node's destructor that asks its own schema for the graph waits for ever when a commit replaces or removes the node, or a sub-transaction that saved it
  is rolled back, but not when a top-level transaction is rolled back (C141).
* `Context::get` and `contains` compare ids, and clone, while they hold the operations they have come to: an `eq` or `clone` that saves or deletes in the
  context's transaction waits for ever, one that does so in an outer transaction only if the read has come there (C142).

## Trusted base

* Coq 8.16.1's kernel (and its `vm_compute`, used in examples and witnesses).
* Axioms: none.  `Print Assumptions` answers `Closed under the global context` for every theorem listed in
  `MANIFEST.json`; the commands are in the `P_*.v` files, so every build prints the answers.  Loading the
  standard library's `Lia` also loads `Coq.ssr.ssrunder`, which contains the module parameters
  `Under_rel.{Under_rel, Under_rel_from_rel, Under_relE, under_rel_done, Over_rel, over_rel, over_rel_done}`; no theorem
  depends on them.
* That the model is the code: every definition cites the lines it transcribes, and states its
  simplifications.  Not derived from the source by a tool.

### Modelled

Everything in `plotline/src` outside tests: `graph/{mod,proxy}.rs`, `id.rs`, `deref.rs`, `document/{mod,lazy}.rs`,
`schema/{mod,error,guard,plugin,resource,transaction,trigger}.rs`, `schema/ops/{save,delete}.rs`, `property.rs`;
`plotline-cli/src/{document,repository,main}.rs`; `plugins/interval/src/{lib,node,tree,date,plugin}.rs`.

### Not modelled, or simplified

* std: `BTreeMap`, `Arc`, `RwLock`, `OnceLock`, `TypeId`, `Path` follow their documentation; `io::Stdout` follows its source (`Stdout.v`).  Where std allows a
  self-deadlock to panic, the model hangs (`OHang`).  Lock waits with other threads do not occur: `Schema` is
  neither `Send` nor `Sync`.
* `Ord`, `PartialEq`, `Clone` and `Identify` of user types are lawful pure functions: `Ord` total and consistent with
  equality, `clone` the identity, `id` constant.  Panics of such code during a commit are modelled (`TxBg crash`, `GCrash`);
  elsewhere they are a panic of the program.  That such code calls the API itself is modelled in `Reenter.v`, not in programs.
* `Context::from(&tx)` for transactions that are not run by `with` is only in `TxMachine.v`, not
  in `Prog.v`.
* In the programs of `Prog.v` guards (`schema.read()`, `schema.write()` and those of cells) are held for a scope: dropped in the reverse order
  they were taken and never leaked with `mem::forget`.  In `TxMachine.v` and `ProxyThreads.v` contexts are dropped in any order, or leaked,
  and in `Guards.v` guards of the graph too, as well as transactions; in `Cells.v` guards of cells, also while unwinding.
* A request for a lock that has to wait takes no step in `Cells.v`; that `std`'s lock may also make a reader wait for a waiting writer only
  delays it.
* In `Drops.v` copies made by `clone` (what `get` answers) are the caller's and not counted; `mem::forget` of a transaction that holds no guard is
  leaking one of its contexts, then dropping it.
* The `RwLock`s of operation buffers are never poisoned: proved in `UserCalls.v` (C144), where their flags and the code that looks at them are modelled;
  `Tx.v` and what builds on it leave them out.
* API calls made by destructors during unwinding are in `Cells.v` and `Unwind.v`, not in programs; infinite recursion never returns
  (in Rust it may abort on stack overflow); allocation failure and overflow of `usize` are not modelled.
* Programs of `Prog.v` use one schema.  Those of `Multi.v` use several, whose ids, nodes and resources have the same types; the triggers of a
  schema may use the others.  Interior mutability of nodes is modelled for lazy documents in a graph
  (`LazyGraph.v`) and in a schema with transactions and guards (`LazySchema.v`), not in programs.
* `tracing`: warnings and errors logged by the schema (`ProgTrace.v`), the lazy document and the command line (`Logs.v`) are
  modelled, by their kind and what they are about; the warning of `Delete` only in the command line; debug output is not.
  `Display`/`Debug` texts are not modelled, apart from the message a command ends with and the listed paths (`CliMain.v`; there
  which characters that are not ASCII are written by their codes, a table of std, is any predicate).
* CLI: clap (4.5) is modelled in `Args.v` for the attributes /repo gives it; what it writes for errors, help and version, and the exit status
  then, is not; before `Args.v` commands are given parsed. `Walk` is an arbitrary list of entries
  below the context, in any order, hidden ones left out by the crate `ignore`; `--context -` is not modelled; in `Cli.v` the
  regular expression is an arbitrary predicate on names; `Regex.v` gives it for a fragment of the crate's syntax (classes
  other than lists of characters and ranges, flags, escaped letters with a meaning and the limits on sizes are left out); extensions contain no `/`; errors of
  standard output, which panic, are in `Stdout.v` only (C146); file contents change only between runs.
* The plugin crate is not in the workspace and imports `plotline::property::Extractor`, which does not exist in this
  commit; it is taken to be a trait with `all(&self, &T) -> Vec<Target>`, a function of the node that may panic.  Panics
  of bounds and comparisons are an arbitrary predicate on the tree and the interval written (`Panics` in `Plugin.v`), given by single calls of user code in
  `TreePanics.v`.
* Termination is about the number of steps; time and memory are not modelled.
