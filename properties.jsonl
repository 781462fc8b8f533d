{"id": "C01", "title": "A graph is a last-write-wins map from id to node", "statement": "After any sequence of with_node / insert / remove calls on any graph, get(id) returns exactly the node of the latest insertion whose node has that id, or None if the latest call about that id was a removal (or there was none and the initial graph had none); insert and remove return exactly the node that was stored under that id just before the call; ids the call is not about are unaffected.", "quantifier": "every initial graph, every finite sequence of insert/with_node/remove calls, every id", "why_tests_cant": "the claim ranges over unboundedly long call sequences and arbitrary id types", "anchors": ["plotline/src/graph/mod.rs: Graph::insert, Graph::with_node, Graph::remove, Source::get"]}
{"id": "C02", "title": "Iterating a graph yields every stored node once, in strictly ascending id order", "statement": "For every graph obtainable through the API, iterating it yields a node n iff get(n.id()) = Some(n), never yields two nodes with the same id, and yields them in strictly increasing id order.", "quantifier": "every graph built by any sequence of API calls", "why_tests_cant": "unbounded number of nodes and histories", "anchors": ["plotline/src/graph/mod.rs: IntoIterator for &Graph, FromIterator, insert, remove"]}
{"id": "C03", "title": "get and contains agree, and get returns a node carrying the requested id", "statement": "For every graph obtainable through the API and every id, contains(id) is true iff get(id) is Some, and get(id) = Some(n) implies n.id() = id.", "quantifier": "every reachable graph, every id", "why_tests_cant": "all histories and ids", "anchors": ["plotline/src/graph/mod.rs: Source for Graph (get, contains)"]}
{"id": "C04", "title": "Building a graph from an iterator keeps the last node of each id", "statement": "Graph::from_iter(nodes).get(id) is the last node in the sequence with that id, or None if there is none; the result is the same graph as inserting the nodes one by one into the empty graph.", "quantifier": "every finite sequence of nodes, every id", "why_tests_cant": "all sequences, all collision patterns", "anchors": ["plotline/src/graph/mod.rs: FromIterator for Graph"]}
{"id": "C05", "title": "A graph's observable order does not depend on the history that built it", "statement": "Two graphs obtainable through the API that answer get identically for every id iterate the same nodes in the same order.", "quantifier": "every pair of reachable graphs", "why_tests_cant": "pairs of arbitrary histories", "anchors": ["plotline/src/graph/mod.rs: IntoIterator for &Graph, insert, remove"]}
{"id": "C06", "title": "A proxy is virtual exactly when its source has no such node", "statement": "For a proxy over a graph, or over a transaction context nested to any depth with any pending operations, is_virtual() is true iff the source's get(id) is None.", "quantifier": "every graph or context state, every nesting depth, every id", "why_tests_cant": "unbounded nesting and pending operations", "anchors": ["plotline/src/graph/proxy.rs: NodeProxy::is_virtual", "plotline/src/schema/transaction.rs: Source for Context (get, contains)", "plotline/src/graph/mod.rs: Source for Graph"]}
{"id": "C07", "title": "Dereferencing a proxy is a snapshot taken at the first dereference", "statement": "The first try_deref of a proxy returns what the source's get(id) returns at that moment; every later try_deref of that proxy, or of a clone made after that, returns the same answer whatever happened to the source meanwhile, including the answer 'absent'.", "quantifier": "every history of source changes and dereferences, any number of clones", "why_tests_cant": "all interleavings of source updates with dereferences", "anchors": ["plotline/src/graph/proxy.rs: TryDeref for NodeProxy, Clone for NodeProxy, NodeProxy::new"]}
{"id": "C08", "title": "A proxy's dereference agrees with is_virtual", "statement": "At every moment try_deref() is None iff is_virtual() is true.", "quantifier": "every history of a proxy over a graph or over a context", "why_tests_cant": "all histories; a single late write breaks it", "anchors": ["plotline/src/graph/proxy.rs: NodeProxy::is_virtual, TryDeref for NodeProxy"]}
{"id": "C09", "title": "Successors are the node's edges, in order, resolved in the same source", "statement": "successors() of a proxy lists, in order, one proxy per edge of the dereferenced node with that edge's id and the same source, is empty iff the node is absent or has no edges, and each successor dereferences to what the source holds when that successor is first dereferenced; iterating successors follows exactly the edge relation along paths of any length.", "quantifier": "every source, every edge extraction function, every path length", "why_tests_cant": "unbounded path lengths and graphs", "anchors": ["plotline/src/graph/proxy.rs: NodeProxy::successors"]}
{"id": "C10", "title": "Every context read is the overlay of pending operations on the base graph", "statement": "For any history of opening transactions and sub-transactions (any nesting, any number of siblings open at once), creating contexts, saving, deleting, committing and dropping, every get/contains on a context returns what a stack of overlay maps returns: the latest pending operation on that id in the context itself, else in its parent, and so on, else the committed graph.", "quantifier": "every finite history of API events over any number of transactions and contexts", "why_tests_cant": "unbounded histories and nesting; only an invariant covers all of them", "anchors": ["plotline/src/schema/transaction.rs: Source for Context (get, contains), Context::save, Context::delete, From<&Background>/From<&Foreground> for Context"]}
{"id": "C11", "title": "Sibling sub-transactions are isolated", "statement": "An operation registered through one context changes the answers of no other context except contexts of the same transaction and contexts nested under it; in particular two sibling sub-transactions never see each other's uncommitted operations, nor does their parent.", "quantifier": "every reachable state, every operation, every pair of contexts", "why_tests_cant": "all states and all pairs of contexts", "anchors": ["plotline/src/schema/transaction.rs: Foreground, Context::transaction, Context::save, Context::delete"]}
{"id": "C12", "title": "Pending changes of a context are visible, live, in its sub-transactions", "statement": "For every id the sub-transaction has no pending operation on, the sub-transaction's get/contains answer what the parent context answers at that moment, including parent changes registered after the sub-transaction was opened.", "quantifier": "every reachable state, every id, every nesting", "why_tests_cant": "all histories of parent and child operations", "anchors": ["plotline/src/schema/transaction.rs: Source for Context::get, Context::parent"]}
{"id": "C13", "title": "Committing a sub-transaction transfers exactly its view to the parent", "statement": "When a sub-transaction commits, afterwards the parent context answers every get exactly as the sub-transaction's context did just before the commit; the committed graph and all contexts outside the parent's transaction and its descendants are unchanged.", "quantifier": "every reachable state and every id", "why_tests_cant": "all states, all pending operation lists", "anchors": ["plotline/src/schema/transaction.rs: Foreground::commit, Foreground::with"]}
{"id": "C14", "title": "A failed or dropped sub-transaction leaves no trace", "statement": "If the closure given to a sub-transaction returns Err (or the sub-transaction is dropped), and the closure itself registered nothing directly on an outer context, every outer context and the graph answer exactly as before the sub-transaction.", "quantifier": "every closure, including nested transactions, triggers and panics", "why_tests_cant": "all closures", "anchors": ["plotline/src/schema/transaction.rs: Foreground::with"]}
{"id": "C15", "title": "A failed transaction leaves the graph untouched", "statement": "If the closure given to schema.transaction().with returns Err, with returns that same Err and the graph is exactly what it was before, whatever the closure, the nested sub-transactions and the triggers did.", "quantifier": "every closure, every trigger set, every state", "why_tests_cant": "all closures and triggers", "anchors": ["plotline/src/schema/transaction.rs: Background::with"]}
{"id": "C16", "title": "A panic inside a transaction leaves the graph untouched and the schema usable", "statement": "If the closure of a top-level transaction panics, the graph is exactly what it was before, its lock is released, and later reads and transactions on the same schema work as if the panicking transaction had never been started.", "quantifier": "every closure that panics at any point, every later program", "why_tests_cant": "every crash point in every closure", "anchors": ["plotline/src/schema/transaction.rs: Background::with", "plotline/src/schema/guard.rs: SchemaReadGuard::from, SchemaWriteGuard::from (poison recovery)"]}
{"id": "C17", "title": "A successful transaction publishes exactly its final view", "statement": "If the closure of a top-level transaction returns Ok (and did not leak its context), with returns that same Ok and afterwards, for every id, the graph answers exactly what the transaction's context answered at the end of the closure.", "quantifier": "every closure, every id", "why_tests_cant": "all closures; the list replay has to equal the lookup for all operation lists", "anchors": ["plotline/src/schema/transaction.rs: Background::commit, Background::with, Source for Context"]}
{"id": "C18", "title": "Nesting of committed transactions is transparent", "statement": "Running a list of operations in committed sub-transactions nested in any way gives the same view in the enclosing context, and the same graph after the top-level commit, as registering the same operations in the same order directly on the enclosing context.", "quantifier": "every nesting tree of committed sub-transactions, every operation list", "why_tests_cant": "all nestings of any depth", "anchors": ["plotline/src/schema/transaction.rs: Foreground::commit, Background::commit"]}
{"id": "C19", "title": "The graph is the serial replay of committed top-level transactions", "statement": "After any history, the graph equals the initial graph with the pending operations of each committed top-level transaction applied in commit order; nothing else, in particular no operation of an uncommitted, failed or dropped transaction, ever reaches it.", "quantifier": "every finite history of API events", "why_tests_cant": "unbounded histories", "anchors": ["plotline/src/schema/transaction.rs: Background::commit", "plotline/src/schema/mod.rs: Schema::transaction"]}
{"id": "C20", "title": "At most one top-level transaction is active, and reads never see its intermediate state", "statement": "While a top-level transaction has a context, opening a context of another top-level transaction of the same schema, or reading or writing the schema's graph directly, does not proceed; consequently at most one top-level transaction holds the graph at any time and a read guard never observes a graph that later changes under it.", "quantifier": "every reachable state, every program", "why_tests_cant": "all histories and schedules of acquisition", "anchors": ["plotline/src/schema/transaction.rs: From<&Background> for Context (get_or_init)", "plotline/src/schema/guard.rs: SchemaReadGuard, SchemaWriteGuard", "plotline/src/schema/mod.rs: Schema::read, Schema::write"]}
{"id": "C21", "title": "The commit is all-or-nothing even if user code panics during it", "statement": "If cloning or comparing ids panics while a top-level transaction is being committed, either all or none of its operations are applied to the graph.", "quantifier": "every operation list and every crash point inside the commit", "why_tests_cant": "every crash point", "anchors": ["plotline/src/schema/transaction.rs: Background::commit", "plotline/src/schema/guard.rs: poison recovery"]}
{"id": "C22", "title": "Ok from a transaction implies its operations were committed", "statement": "Whenever with returns Ok, the operations registered in the transaction have been applied to the graph (or to the parent context for sub-transactions).", "quantifier": "every closure, including those leaking their context", "why_tests_cant": "all closures", "anchors": ["plotline/src/schema/transaction.rs: Background::commit, Foreground::commit (Arc::into_inner early return)"]}
{"id": "C23", "title": "All locks are released when a program returns or panics", "statement": "After any program using the API (transactions, read/write guards, resource and target accesses, nested arbitrarily) returns or panics, the graph lock and every resource and target lock are in the state they were in before it started.", "quantifier": "every program, every trigger set", "why_tests_cant": "all programs, all panic points", "anchors": ["plotline/src/schema/guard.rs: guards", "plotline/src/schema/transaction.rs: Background::commit, Target::read/write", "plotline/src/schema/resource.rs: Res::read/write", "plotline/src/deref.rs: With, WithMut"]}
{"id": "C24", "title": "Save without triggers inserts exactly the node", "statement": "On a schema without save triggers, Save::new(node).execute(schema.transaction()) returns Ok and the graph afterwards is the previous graph with that node inserted; executed on a sub-transaction it makes the parent context answer node for its id and everything else as before.", "quantifier": "every graph, every node, every enclosing context", "why_tests_cant": "all graphs and nodes", "anchors": ["plotline/src/schema/ops/save.rs: Save::execute", "plotline/src/schema/transaction.rs: Background, Foreground"]}
{"id": "C25", "title": "Delete removes exactly the node, and reports Noop when there is none", "statement": "On a schema without delete triggers, Delete::new(id).execute(tx) removes exactly that id when the view contains it and returns Ok; whatever the triggers are, when the view does not contain it, it returns Err(Noop), runs no trigger and changes nothing.", "quantifier": "every graph, every id, every enclosing context, every trigger set", "why_tests_cant": "all graphs, ids and trigger sets", "anchors": ["plotline/src/schema/ops/delete.rs: Delete::execute"]}
{"id": "C26", "title": "Save runs BeforeSave triggers, then saves the target as they left it, then runs AfterSave triggers", "statement": "For every trigger set, when Save returns Ok: all BeforeSave triggers ran first in registration order with the node as target, then the target's value at that point was registered, then all AfterSave triggers ran seeing that node in the context; the published graph is the replay of before-operations, the save, after-operations in that order.", "quantifier": "every trigger set, every node, every state", "why_tests_cant": "all trigger programs", "anchors": ["plotline/src/schema/ops/save.rs: Save::execute", "plotline/src/schema/trigger.rs: TriggerSelect::execute"]}
{"id": "C27", "title": "Any failing trigger aborts the operation", "statement": "If any trigger of a Save or Delete on a top-level transaction returns Err, the operation returns that Err, no trigger scheduled after it runs, and the graph is unchanged.", "quantifier": "every trigger set, every position of the failing trigger", "why_tests_cant": "all trigger programs and positions", "anchors": ["plotline/src/schema/ops/save.rs: Save::execute", "plotline/src/schema/ops/delete.rs: Delete::execute", "plotline/src/schema/trigger.rs: TriggerSelect::execute"]}
{"id": "C28", "title": "Delete runs BeforeDelete triggers, then deletes, then runs AfterDelete triggers with the old node as target", "statement": "For every trigger set, when Delete returns Ok: the node existed, the triggers saw that node as target, AfterDelete triggers started in a context where the id is absent, and the published graph is the replay of before-operations, the deletion, after-operations in that order.", "quantifier": "every trigger set, every id, every state", "why_tests_cant": "all trigger programs", "anchors": ["plotline/src/schema/ops/delete.rs: Delete::execute"]}
{"id": "C29", "title": "Ok from Save implies the saved node is in the graph", "statement": "If Save::execute on a top-level transaction returns Ok then the graph contains the node as BeforeSave triggers left it.", "quantifier": "every trigger set", "why_tests_cant": "all trigger programs, including those that panic internally", "anchors": ["plotline/src/schema/ops/save.rs: Save::execute (target().with result ignored)", "plotline/src/schema/transaction.rs: Target::read (poisoned target)"]}
{"id": "C30", "title": "Triggers run in registration order, only for their own schedule", "statement": "After any sequence of with_trigger calls, select(S).execute runs exactly the triggers registered for schedule type S, each once, in registration order, and none registered for other types.", "quantifier": "every registration sequence", "why_tests_cant": "unbounded registration sequences", "anchors": ["plotline/src/schema/trigger.rs: TriggerSet::with_trigger, TriggerSet::select", "plotline/src/schema/mod.rs: Schema::with_trigger"]}
{"id": "C31", "title": "Trigger execution stops at the first failure", "statement": "Executing a selection returns Ok iff every trigger returned Ok; otherwise it returns the first error, and no later trigger is executed.", "quantifier": "every list of triggers, every state", "why_tests_cant": "all trigger programs", "anchors": ["plotline/src/schema/trigger.rs: TriggerSelect::execute (try_for_each)"]}
{"id": "C32", "title": "Save and Delete always terminate when every trigger terminates", "statement": "If every trigger closure, run on its own, always terminates, then Save and Delete terminate.", "quantifier": "every trigger set", "why_tests_cant": "all trigger sets; divergence cannot be observed by a finite test", "anchors": ["plotline/src/schema/ops/save.rs: Save::execute", "plotline/src/schema/trigger.rs: TriggerSelect::execute", "plotline/src/schema/transaction.rs: Ctx::transaction"]}
{"id": "C33", "title": "The last resource registered for a type is the one found, per type", "statement": "After any sequence of with_resource calls, Res::<R> finds exactly the last registered value of type R, and exists() is true iff some value of type R was registered (and it has not been poisoned); registrations of other types never interfere.", "quantifier": "every registration sequence, every type", "why_tests_cant": "unbounded sequences", "anchors": ["plotline/src/schema/resource.rs: ResourceSet::with_resource, Res::from, Res::exists", "plotline/src/schema/mod.rs: Schema::with_resource"]}
{"id": "C34", "title": "with_mut updates are visible to every later access, and with never modifies", "statement": "After with_mut on a present resource replaces its value, every handle to that resource reads the new value until the next with_mut; with changes no resource; accesses to one resource never change another.", "quantifier": "every program over any number of resources", "why_tests_cant": "all programs", "anchors": ["plotline/src/schema/resource.rs: Res::read, Res::write", "plotline/src/deref.rs: With, WithMut"]}
{"id": "C35", "title": "Tuple access runs the closure iff every component is present", "statement": "For a tuple of targets and resources, with/with_mut runs the closure exactly once with all the current values if all are present and accessible, and otherwise does not run it, returns None and changes nothing; asking for the same resource twice with with_mut never returns.", "quantifier": "every tuple, every state", "why_tests_cant": "all combinations of presence and poisoning", "anchors": ["plotline/src/deref.rs: impl_with!"]}
{"id": "C36", "title": "A failed transaction rolls back resource changes", "statement": "If a transaction fails, resources mutated by its closure or triggers have the value they had before.", "quantifier": "every closure and trigger set", "why_tests_cant": "all programs", "anchors": ["plotline/src/schema/transaction.rs: Background::with", "plotline/src/schema/resource.rs: Res::write"]}
{"id": "C37", "title": "A panic while mutating a resource disables exactly that resource", "statement": "If the closure of with_mut panics, the resources it was holding are absent from then on for every handle (exists() = false), and no other resource becomes absent; a panic in a read-only with disables nothing.", "quantifier": "every program, every panic point", "why_tests_cant": "every crash point", "anchors": ["plotline/src/schema/resource.rs: Res::read/write (poison)", "plotline/src/deref.rs: WithMut"]}
{"id": "C38", "title": "A lazy document loads at most once and then never changes", "statement": "With accesses one at a time: a document built from content never consults the repository; otherwise each try_deref consults the repository until the first success, whose document is returned by that and every later access whatever the repository answers later; failures are not remembered; a clone starts with the cache its origin had when cloned and evolves independently; the id never changes.", "quantifier": "every sequence of accesses and clones, every behaviour of the repository over time", "why_tests_cant": "unbounded sequences, arbitrary repositories", "anchors": ["plotline/src/document/lazy.rs: LazyDocument::new, builder, TryDeref, Clone, Identify"]}
{"id": "C39", "title": "Concurrent readers of a lazy document never see two different documents", "statement": "For any number of threads dereferencing the same lazy document in any interleaving and any repository behaviour, all Some answers are the same document, equal to what every access started afterwards returns.", "quantifier": "every number of threads, every schedule, every repository behaviour", "why_tests_cant": "all schedules", "anchors": ["plotline/src/document/lazy.rs: TryDeref for LazyDocument"]}
{"id": "C40", "title": "A document the repository has is never reported absent", "statement": "If the repository always finds the document, every try_deref, from any thread in any interleaving, returns Some.", "quantifier": "every number of threads, every schedule", "why_tests_cant": "needs a particular schedule", "anchors": ["plotline/src/document/lazy.rs: TryDeref for LazyDocument (lost set race returns None)"]}
{"id": "C41", "title": "Every listed id loads the file it was listed for", "statement": "For every file the CLI lists, looking its id up in the repository reads that very file.", "quantifier": "every directory content, every file name", "why_tests_cant": "all file names", "anchors": ["plotline-cli/src/repository.rs: LocalDocumentRepository::all, find_by_id"]}
{"id": "C42", "title": "The listing is exactly the matching entries, sorted, without repetition", "statement": "doc list prints the ids of exactly the walked entries whose name matches the extension, each once, in ascending path order.", "quantifier": "every directory content", "why_tests_cant": "all directory contents", "anchors": ["plotline-cli/src/repository.rs: LocalDocumentRepository::all", "plotline-cli/src/main.rs: main", "plotline-cli/src/document.rs: DocumentSubCommand::List"]}
{"id": "C43", "title": "Different files get different ids", "statement": "For an extension made of plain characters, two different matching files below the base directory never get the same id.", "quantifier": "every pair of files", "why_tests_cant": "all file names", "anchors": ["plotline-cli/src/repository.rs: LocalDocumentRepository::all"]}
{"id": "C44", "title": "A saved document is still there in the next run", "statement": "After doc <id> save <content>, a later run lists the id and finds the content.", "quantifier": "every directory, id and content", "why_tests_cant": "all states", "anchors": ["plotline-cli/src/document.rs: DocumentSubCommand::Save", "plotline-cli/src/main.rs: main"]}
{"id": "C45", "title": "Lookups stay inside the base directory", "statement": "find_by_id reads only files located under the base directory.", "quantifier": "every id", "why_tests_cant": "all ids", "anchors": ["plotline-cli/src/repository.rs: find_by_id"]}
{"id": "C46", "title": "A loaded document carries the id it was requested by", "statement": "When a lazy document of the local repository is loaded, the document's id() equals the lazy document's id().", "quantifier": "every listed file", "why_tests_cant": "all file names", "anchors": ["plotline-cli/src/repository.rs: find_by_id", "plotline/src/document/lazy.rs: TryDeref"]}
{"id": "C47", "title": "delete succeeds exactly on listed ids", "statement": "doc <id> delete succeeds iff list would print that id, and otherwise fails with the Noop error; a missing id is an error for save and delete and irrelevant for list.", "quantifier": "every directory content, every id", "why_tests_cant": "all states", "anchors": ["plotline-cli/src/document.rs: DocumentCli::execute", "plotline/src/schema/ops/delete.rs: Delete::execute"]}
{"id": "C48", "title": "intersects is closed-interval overlap", "statement": "For well-formed intervals (lo <= hi), a.intersects(b) iff some bound-ordered overlap exists, i.e. a.lo <= b.hi and b.lo <= a.hi; it is symmetric and reflexive.", "quantifier": "every pair of intervals over every totally ordered bound type", "why_tests_cant": "all pairs over all orders", "anchors": ["plugins/interval/src/lib.rs: IntervalExt::intersects, contains"]}
{"id": "C49", "title": "On any insert-only tree, intersects is exact", "statement": "For a tree built by any sequence of inserts of well-formed intervals and any well-formed query, intersects(query) is true iff one of the inserted intervals overlaps the query.", "quantifier": "every insertion sequence, every query", "why_tests_cant": "unbounded sequences", "anchors": ["plugins/interval/src/node.rs: insert, intersects", "plugins/interval/src/tree.rs: IntervalSearchTree"]}
{"id": "C50", "title": "for_each_intersection visits exactly the overlapping intervals, once each", "statement": "On a tree reached by any sequence of inserts and terminating deletes of well-formed intervals, for_each_intersection(query) calls the closure exactly once per stored occurrence overlapping the query, and for nothing else, in descending order of position.", "quantifier": "every history, every query", "why_tests_cant": "unbounded histories", "anchors": ["plugins/interval/src/node.rs: for_each_intersection"]}
{"id": "C51", "title": "insert adds exactly one occurrence", "statement": "insert adds exactly one occurrence of the interval to the stored multiset, keeps every other, keeps the in-order sequence sorted by lower bound with equal lower bounds in insertion order, and increments count by one; all stored maxima stay exact.", "quantifier": "every tree, every interval", "why_tests_cant": "unbounded trees", "anchors": ["plugins/interval/src/node.rs: insert, count, into_inorder"]}
{"id": "C52", "title": "delete always terminates", "statement": "delete(interval) returns for every tree and interval.", "quantifier": "every tree reached by inserts, every interval", "why_tests_cant": "non-termination cannot be observed by tests", "anchors": ["plugins/interval/src/node.rs: delete, join"]}
{"id": "C53", "title": "delete removes the given interval", "statement": "When delete returns, exactly one occurrence of the interval has been removed if it was stored, and nothing else changed.", "quantifier": "every tree, every interval", "why_tests_cant": "unbounded trees", "anchors": ["plugins/interval/src/node.rs: delete"]}
{"id": "C54", "title": "intersects stays exact after deletions", "statement": "After any sequence of inserts and terminating deletes, intersects(query) is true iff a stored interval overlaps the query.", "quantifier": "every history, every query", "why_tests_cant": "unbounded histories", "anchors": ["plugins/interval/src/node.rs: delete (max not refreshed), intersects"]}
{"id": "C55", "title": "Rotations preserve the tree's content and maxima", "statement": "rotate_left and rotate_right keep the in-order sequence, keep exact maxima exact, keep the tree searchable, and are inverse to each other when the rotated child exists.", "quantifier": "every tree", "why_tests_cant": "unbounded trees", "anchors": ["plugins/interval/src/node.rs: rotate_left, rotate_right"]}
{"id": "C56", "title": "Dates are totally ordered consistently with equality", "statement": "For both encodings, comparing dates with the same number of components is a total order (reflexive, antisymmetric, transitive, total) whose Equal coincides with ==.", "quantifier": "every component type with a total order, every number of components, every triple of dates", "why_tests_cant": "all lengths and values", "anchors": ["plugins/interval/src/date.rs: Ord for Date<LittleEndian>, Ord for Date<BigEndian>, PartialEq for Date"]}
{"id": "C57", "title": "Little- and big-endian dates order the same moments the same way", "statement": "Comparing two little-endian dates gives the same answer as comparing the big-endian dates with reversed components: the most significant differing component decides.", "quantifier": "every number of components, every pair", "why_tests_cant": "all lengths and values", "anchors": ["plugins/interval/src/date.rs: Ord impls"]}
{"id": "C58", "title": "A date used as an interval overlaps only itself", "statement": "For dates of either encoding used as intervals, a.intersects(b) iff a == b.", "quantifier": "every pair of dates", "why_tests_cant": "all values", "anchors": ["plugins/interval/src/date.rs: Interval for Date", "plugins/interval/src/lib.rs: IntervalExt"]}
{"id": "C59", "title": "With the interval plugin installed, saved nodes' intervals are indexed", "statement": "After installing the plugin and successfully saving a node, every interval extracted from it is stored in the search tree under the node's id.", "quantifier": "every node type, extractor, node and state", "why_tests_cant": "all node types and states", "anchors": ["plugins/interval/src/plugin.rs: IntervalPlugin::install, on_save"]}
{"id": "C60", "title": "The interval index follows the graph", "statement": "With the plugin installed, after any successful or failed Save or Delete the search tree holds exactly the intervals of the nodes in the graph.", "quantifier": "every history of saves and deletes, including failing and overwriting ones", "why_tests_cant": "all histories", "anchors": ["plugins/interval/src/plugin.rs: on_save, on_delete"]}
{"id": "C61", "title": "delete returns exactly when the interval does not sit between two children", "statement": "delete(interval) returns iff the search by lower bound does not end at a node that holds the interval and has both a left and a right child.", "quantifier": "every tree, every interval", "why_tests_cant": "non-termination cannot be observed by tests", "anchors": ["plugins/interval/src/node.rs: delete, join"]}
{"id": "C62", "title": "A delete that returns has exactly the effect of the search it performs", "statement": "When delete(interval) returns: if the search by lower bound ends at a node equal to the interval, exactly one occurrence has left the in-order sequence; otherwise the tree is unchanged.", "quantifier": "every tree, every interval", "why_tests_cant": "unbounded trees", "anchors": ["plugins/interval/src/node.rs: delete"]}
{"id": "C63", "title": "Stored maxima are never too small, whatever was deleted", "statement": "On any tree reached by inserts and returning deletes, the max of every subtree bounds every upper bound stored in it, hence for_each_intersection calls its closure at least once iff some stored interval overlaps the query.", "quantifier": "every history, every query", "why_tests_cant": "unbounded histories", "anchors": ["plugins/interval/src/node.rs: insert, delete, for_each_intersection"]}
{"id": "C64", "title": "A dereferenced proxy keeps its answer while is_virtual follows the source", "statement": "Once a proxy has been dereferenced, every later try_deref repeats that answer while is_virtual reports the source's current state; so they disagree exactly when the presence of the id in the source changed since.", "quantifier": "every history of source changes and proxy calls", "why_tests_cant": "all interleavings of source updates with proxy calls", "anchors": ["plotline/src/graph/proxy.rs: NodeProxy::is_virtual, TryDeref for NodeProxy"]}
{"id": "C65", "title": "A spurious absence is given only once the document is loaded", "statement": "If the repository always finds the document and some call of try_deref nevertheless answers None, then every call started afterwards answers Some, with the same document for all of them.", "quantifier": "every number of threads, every schedule", "why_tests_cant": "needs all schedules", "anchors": ["plotline/src/document/lazy.rs: TryDeref for LazyDocument"]}
{"id": "C66", "title": "Dereferencing a lazy document is wait-free", "statement": "In any interleaving a call of try_deref returns within four steps of its own (look into the cell, consult the repository, set the cell, read it again), whatever the other calls do or fail to do.", "quantifier": "every number of threads, every schedule, every repository behaviour", "why_tests_cant": "needs all schedules, including unfair ones", "anchors": ["plotline/src/document/lazy.rs: TryDeref for LazyDocument"]}
{"id": "C67", "title": "A panic of user code during a commit leaves exactly the operations before it applied", "statement": "If user code panics while a top-level transaction is being committed, with panics, the graph afterwards is the previous graph with exactly the operations before the crash point replayed in order, and the schema is unlocked.", "quantifier": "every closure, every operation list, every crash point", "why_tests_cant": "unbounded operation lists and crash points", "anchors": ["plotline/src/schema/transaction.rs: Background::commit"]}
{"id": "C68", "title": "Ok from a transaction publishes all its operations, or none if one of its contexts was leaked", "statement": "When the closure of a transaction returns Ok, with returns that Ok; if no context of the transaction was leaked, the graph (or the parent context of a sub-transaction) is extended with exactly all its operations, in order; if one was leaked, with none of them.", "quantifier": "every closure, including those leaking contexts, every state", "why_tests_cant": "ranges over all closures and nestings", "anchors": ["plotline/src/schema/transaction.rs: Background::with, Background::commit, Foreground::with, Foreground::commit"]}
{"id": "C69", "title": "What Ok from Save guarantees", "statement": "When Save on a top-level transaction returns Ok: if the target could be read after the BeforeSave triggers, its value m was registered then, and what the graph holds at m's id is m overlaid with exactly the operations registered on the context afterwards; if it could not (a trigger panicked while mutating it and the panic was caught), the graph is the replay of the triggers' own operations and nothing was saved.", "quantifier": "every trigger set that only borrows contexts, every node, every state", "why_tests_cant": "all trigger programs, including those that panic internally", "anchors": ["plotline/src/schema/ops/save.rs: Save::execute", "plotline/src/schema/transaction.rs: Target::read"]}
{"id": "C70", "title": "Programs terminate when triggers only execute lower-ranked schedules", "statement": "If no closure loops by itself and schedules can be ranked so that triggers of a schedule only execute triggers of schedules of lower rank (e.g. triggers that neither save nor delete), every program over the schema (Save, Delete, transactions, accesses, nested in any way) stops: it returns, panics or blocks, but never runs for ever.", "quantifier": "every schema with such a ranking, every program, every state", "why_tests_cant": "divergence cannot be observed by a finite test", "anchors": ["plotline/src/schema/trigger.rs: TriggerSelect::execute", "plotline/src/schema/ops/save.rs: Save::execute", "plotline/src/schema/ops/delete.rs: Delete::execute"]}
{"id": "C71", "title": "Resources are not transactional", "statement": "Opening, committing, rolling back or dropping a transaction never touches a resource: after Transaction::with (top-level or nested, succeeded, failed or panicked) every resource has exactly the value and availability the closure left, including what the triggers executed inside it wrote.", "quantifier": "every schema, state, transaction kind, closure and outcome", "why_tests_cant": "all closures and trigger sets", "anchors": ["plotline/src/schema/transaction.rs: Background::with, Foreground::with, Context drop", "plotline/src/schema/resource.rs: Res::write"]}
{"id": "C72", "title": "Which file is loaded for a listed id", "statement": "For a file listed by the CLI, looking its id up reads that very file iff the name has no dot before the extension; for a name a.b.ext (b without dots) the file a.ext of the same directory is read instead, or nothing is found if there is none.", "quantifier": "every base directory, plain extension, listed file and disk content", "why_tests_cant": "all file names", "anchors": ["plotline-cli/src/repository.rs: LocalDocumentRepository::all, find_by_id"]}
{"id": "C73", "title": "No CLI command has a lasting effect", "statement": "In any sequence of runs of the CLI on a base directory, every run prints and returns exactly what it would have printed and returned as the first one: saves and deletes are forgotten when the process ends.", "quantifier": "every directory and sequence of commands", "why_tests_cant": "all command sequences", "anchors": ["plotline-cli/src/main.rs: main", "plotline-cli/src/document.rs: DocumentCli::execute"]}
{"id": "C74", "title": "Exactly which ids are looked up below the base directory", "statement": "A relative id is looked up below the base directory iff, read component by component, it never climbs above its starting point and ends below it; the path looked up for an absolute id does not depend on the base directory at all.", "quantifier": "every base directory, plain extension and id", "why_tests_cant": "all ids", "anchors": ["plotline-cli/src/repository.rs: find_by_id"]}
{"id": "C75", "title": "A loaded document never carries the id it is listed under", "statement": "When the document of a listed id is loaded, the id of the document is the path that was looked up, which is never the listed id.", "quantifier": "every non-empty base directory, plain extension, listed file and disk content", "why_tests_cant": "all file names", "anchors": ["plotline-cli/src/repository.rs: find_by_id", "plotline-cli/src/document.rs: Document::id", "plotline/src/document/lazy.rs: LazyDocument::id"]}
{"id": "C76", "title": "For a node type other than its id type the interval plugin is inert", "statement": "If T is not T::Id, then however the schema is built around the plugin, no search tree is ever found by the plugin's triggers, and both triggers return Ok leaving graph, buffers and resources as they were.", "quantifier": "every node type with T != T::Id, every build of the schema that does not register the plugin's own tree type (private to the crate), every state and context in which target and extractor can be read", "why_tests_cant": "all schemas and states", "anchors": ["plugins/interval/src/plugin.rs: IntervalPlugin::install, on_save, on_delete"]}
{"id": "C77", "title": "A rolled-back save remains in the interval index", "statement": "With the plugin set up, a save inside a transaction that then fails leaves the graph as it was, but the intervals of the node have been added to the search tree.", "quantifier": "every state with an unlocked graph, every node and error", "why_tests_cant": "all states", "anchors": ["plugins/interval/src/plugin.rs: on_save", "plotline/src/schema/transaction.rs: Background::with"]}
{"id": "C78", "title": "The intervals of an overwritten node remain in the interval index", "statement": "If the search tree holds exactly the intervals of the nodes of the graph, then after a top-level save of a node whose id is taken it holds those of the nodes of the new graph and, in addition, those of the overwritten node.", "quantifier": "every state, every pair of nodes of the same id", "why_tests_cant": "all states", "anchors": ["plugins/interval/src/plugin.rs: on_save"]}
{"id": "C79", "title": "With the interval plugin, Delete never returns exactly when an interval of the node sits between two children", "statement": "With the plugin set up, a top-level Delete of a present node never returns iff one of the node's intervals, after its predecessors have been deleted, is found in a tree node with two children; otherwise it returns Ok, the node is removed and the tree is the result of deleting all its intervals.", "quantifier": "every state, every node, every search tree", "why_tests_cant": "non-termination cannot be observed by tests", "anchors": ["plugins/interval/src/plugin.rs: on_delete", "plugins/interval/src/node.rs: delete, join"]}
{"id": "C80", "title": "A wrong negative answer of intersects comes exactly from a stale maximum on the search path", "statement": "For a tree obtained by inserts and terminating deletes of well-formed intervals, intersects(query) is false though a stored interval overlaps the query iff the search visits a node that does not overlap, whose left subtree's recorded maximum is at or beyond the query's lower bound although all intervals it holds end before it, while the right subtree holds an overlapping interval.", "quantifier": "every reachable tree, every well-formed query", "why_tests_cant": "unbounded histories and trees; exact characterisation", "anchors": ["plugins/interval/src/node.rs: intersects, delete"]}
{"id": "C81", "title": "The plugin's search tree is exactly the replay of the saves and deletes", "statement": "After any sequence of returning top-level saves and deletes (including overwriting saves and deletes of absent nodes) the plugin's tree equals the one obtained from the initial tree by inserting every interval of every saved node and deleting every interval of the stored node of every effective delete, in that order.", "quantifier": "every schema with the plugin, every history, every node type and interval extractor", "why_tests_cant": "unbounded histories, arbitrary extractors", "anchors": ["plugins/interval/src/plugin.rs: on_save, on_delete", "plotline/src/schema/ops/save.rs: execute", "plotline/src/schema/ops/delete.rs: execute"]}
{"id": "C82", "title": "Concurrent dereferences of a proxy agree and consult the source at most once", "statement": "When many threads dereference a shared NodeProxy, all calls that return give the same answer; over a graph it is the node of the graph with that id; the source answers at most once and is never consulted by two calls at a time; a call waits only while another one is consulting the source, and if that one panics the next call consults the source again.", "quantifier": "every schedule of any number of threads, proxies and clones; every answer or panic of the source", "why_tests_cant": "schedules cannot be enumerated", "anchors": ["plotline/src/graph/proxy.rs: try_deref, clone"]}
{"id": "C83", "title": "A resource registered again is a new resource: older handles keep the old one", "statement": "Whatever was run before, after with_resource registers a value of a type again, Res handles taken afterwards read the new value (even if the old resource was disabled by a panic), handles of other types are unaffected, handles taken before keep reading the old value with its availability, and with_mut through an old handle never changes what new handles read, nor conversely.", "quantifier": "every sequence of registrations and programs, every type, every handle, every update", "why_tests_cant": "unbounded histories, all handles", "anchors": ["plotline/src/schema/resource.rs: ResourceSet::with_resource, Res::from", "plotline/src/schema/mod.rs: Schema::with_resource"]}
{"id": "C84", "title": "Listing follows the regular expression made from the extension", "statement": "For every extension whose pattern '\\.EXT$' is a valid expression of the supported syntax, 'plot doc list' succeeds and prints, in ascending order and without repetition, exactly the paths below the base directory, each without its last extension, of the entries whose file name has a match of the pattern (the base directory's own name having none).", "quantifier": "every extension in the supported fragment of regular expressions, every directory tree", "why_tests_cant": "all patterns and all directory trees", "anchors": ["plotline-cli/src/repository.rs: LocalDocumentRepository::all", "plotline-cli/src/main.rs: main"]}
{"id": "C85", "title": "An extension without special characters is a suffix", "statement": "With an extension made of characters that are not special in regular expressions (and are not U+FFFD, which also stands for bytes that are no character), every command behaves as if entries were selected by 'the bytes of the file name end with a dot and the extension'.", "quantifier": "every such extension, every command, every directory", "why_tests_cant": "all extensions and file names", "anchors": ["plotline-cli/src/repository.rs: LocalDocumentRepository::all"]}
{"id": "C86", "title": "An extension A|B lists names containing .A or ending in B and loads hardly any of them", "statement": "With the extension 'A|B' (A, B without special characters and U+FFFD) an entry is listed exactly when its name contains '.A' anywhere or ends in B (no dot needed), and its id loads the entry itself exactly when the name is a dotless stem followed by the literal '.A|B'.", "quantifier": "every A, B, every visible entry at any depth", "why_tests_cant": "all names", "anchors": ["plotline-cli/src/repository.rs: LocalDocumentRepository::all, find_by_id"]}
{"id": "C87", "title": "An extension with a dot matches any character there", "statement": "With the extension 'A.B' (A, B without special characters and U+FFFD) an entry is listed exactly when its name ends in '.A', the bytes of one character other than a newline (or a piece of bytes that is none and is read as U+FFFD), and B; its id loads the entry itself exactly when that character is a dot, whatever dots come before.", "quantifier": "every A, B, every visible entry at any depth", "why_tests_cant": "all names", "anchors": ["plotline-cli/src/repository.rs: LocalDocumentRepository::all, find_by_id"]}
{"id": "C88", "title": "An extension that makes the pattern invalid panics whatever the command", "statement": "For extensions without classes, where no backslash is followed by a letter with a meaning of its own or by < or >, whose groups have no flags: if '\\.EXT$' is not written according to the grammar of regular expressions, every command panics, printing nothing and changing nothing; if it is, listing succeeds.", "quantifier": "every such extension, every command, every directory", "why_tests_cant": "all extensions", "anchors": ["plotline-cli/src/repository.rs: LocalDocumentRepository::all", "plotline-cli/src/main.rs: main"]}
{"id": "C89", "title": "Intersections are visited by descending lower bound and, among equal ones, latest insertion first", "statement": "On a tree built by insertions, for_each_intersection visits the intervals overlapping the query by descending lower bound; those with the same lower bound are visited in the reverse of the order they were inserted in.", "quantifier": "every sequence of insertions of well-formed intervals, with repetitions, every well-formed query", "why_tests_cant": "all insertion orders", "anchors": ["plugins/interval/src/node.rs: for_each_intersection, insert", "plugins/interval/src/tree.rs: for_each_intersection, insert"]}
{"id": "C90", "title": "What becomes of intervals with reversed bounds", "statement": "An interval with lo > hi intersects a well-formed one exactly when that one contains one of its ends, and never another reversed one, not even itself. Whatever the bounds, the tree never reports an interval it does not hold or that does not intersect the query, and misses an intersecting one only if that one's hi is below the query's lo, so that one of the two is reversed.", "quantifier": "every interval, every tree obtained by insertions and deletions, every query", "why_tests_cant": "all bounds and trees", "anchors": ["plugins/interval/src/lib.rs: IntervalExt::intersects", "plugins/interval/src/node.rs: intersects, for_each_intersection"]}
{"id": "C91", "title": "The tree is never rebalanced: sorted insertions degenerate into a list", "statement": "Inserting intervals with ascending lower bounds, or with strictly descending ones, gives a tree as high as the number of intervals; an insertion raises the height by at most one and never lowers it.", "quantifier": "every sorted sequence, every tree", "why_tests_cant": "unbounded sequences", "anchors": ["plugins/interval/src/node.rs: insert, rotate_left, rotate_right"]}
{"id": "C92", "title": "The exit status and message of every command", "statement": "A run of the command line always ends, in one way. It panics (status 101) exactly when the extension does not make a regular expression. Otherwise listing ends with status 0; save with 0 if given an id, else with 1 and 'Error: node id must be set'; delete with 0 if the id is one of the listed ones (as a path), with 1 and 'Error: nothing to apply' if it is not, and with 1 and 'Error: node id must be set' without an id. Only listing prints.", "quantifier": "every directory, every command, every context, every extension in the modelled fragment", "why_tests_cant": "all directories, commands and extensions", "anchors": ["plotline-cli/src/main.rs: main", "plotline-cli/src/document.rs: DocumentCli::execute", "plotline/src/schema/error.rs: Error"]}
{"id": "C93", "title": "A listing takes one line per document and can be read back", "statement": "The text printed by a listing consists of exactly as many lines as there are documents listed, whatever bytes file names contain; it contains no control characters but the ends of lines; and it determines the ids: two runs that print the same text, whatever their directories, extensions and versions of std, list the same ids.", "quantifier": "every directory, every extension", "why_tests_cant": "all file names", "anchors": ["plotline-cli/src/document.rs: DocumentCli::execute"]}
{"id": "C94", "title": "Every run is a serial history of the graph", "statement": "Whatever a program does with a schema (guards, transactions, sub-transactions, triggers, panics caught or not), the publications of commits, the calls on write guards with their answers and the reads through guards, in the order in which they happen, form a legal history of a plain map starting from the graph's nodes, and if the program ends the graph holds what that history leaves. A top-level transaction contributes exactly one publication, at its end, of all the operations its closure registered in order (or of a prefix, if an insertion panics; or none, if the closure fails or a context is leaked). Inside a transaction nothing is published, even if it never ends; under a read guard the graph is only read.", "quantifier": "all schemas, triggers, programs, reachable graphs, outcomes, including runs that never end", "why_tests_cant": "The histories range over all programs and all nestings of guards, transactions and panics.", "anchors": ["plotline/src/schema/transaction.rs", "plotline/src/schema/guard.rs", "plotline/src/graph/mod.rs"]}
{"id": "C95", "title": "No registered operation is lost silently", "statement": "If a run logs no 'commiting transaction with contexts yet in use', it has the same outcome, history, graph and resources as the program in which no context is leaked. When a transaction's closure returns Ok, either the view of its context is published or that error is logged; the same holds of a sub-transaction and the operations of its parent.", "quantifier": "all schemas, programs, states and ways of leaking contexts", "why_tests_cant": "A test can check that one leak is logged, not that every quiet run is the run without leaks.", "anchors": ["plotline/src/schema/transaction.rs:69-96", "plotline/src/schema/transaction.rs:140-166"]}
{"id": "C96", "title": "A dropped save is always logged", "statement": "If Save returns Ok and no 'accessing transaction target' error is logged, then after the BeforeSave triggers the target held some node, and the save of that node is among the operations published by the transaction (or registered in the context it was executed on), right after those of the BeforeSave triggers.", "quantifier": "all schemas whose triggers cannot leak the context they borrow, all nodes and states, top-level or on a context", "why_tests_cant": "The triggers are arbitrary code.", "anchors": ["plotline/src/schema/ops/save.rs:24-36", "plotline/src/schema/transaction.rs:242-254"]}
{"id": "C97", "title": "A skipped access to something disabled is logged, one error per handle", "statement": "An access to a tuple of resources and targets that comes back logs, before anything else, exactly one error for each handle whose lock a panic poisoned, in the order of the tuple. If all of them exist, the closure is skipped exactly when something is logged; if none was ever registered, nothing is.", "quantifier": "all tuples, states, closures; shared and exclusive", "why_tests_cant": "Tuples of any length over any states.", "anchors": ["plotline/src/schema/resource.rs:78-93", "plotline/src/schema/resource.rs:138-153", "plotline/src/schema/transaction.rs:242-254", "plotline/src/deref.rs:59-139"]}
{"id": "C98", "title": "A poisoned graph is reported at every guard, and no other is", "statement": "A panic inside a top-level transaction (closure or commit) or under a write guard poisons the graph for ever; a panic under a read guard or inside a sub-transaction that is caught within the transaction does not. Once poisoned, every later transaction, read and write guard logs 'posioned graph' first and carries on; as long as it is not, no run ever logs it.", "quantifier": "all schemas, programs and states", "why_tests_cant": "Holds of every later operation of every program.", "anchors": ["plotline/src/schema/guard.rs:36-44", "plotline/src/schema/guard.rs:81-89", "plotline/src/schema/transaction.rs:54-61"]}
{"id": "C99", "title": "A thread blocks exactly when it asks for what it already holds", "statement": "Started with nothing locked, at any point of any run of one thread (operations, transactions, guards, resources, targets, triggers, panics included) its requests for the graph, targets and resources and the guards it holds make a legal history: a request is answered before anything else happens, is never granted when it conflicts with a guard held, only guards held are dropped. A request left unanswered conflicts with a guard the thread itself holds (two guards are compatible only if both are shared). The run blocks if and only if some request is left unanswered; a run that returns or panics has dropped every guard.", "quantifier": "all schemas, programs, states and points of the run", "why_tests_cant": "A test that deadlocks gives no answer, and one that does not says nothing of other nestings of guards.", "anchors": ["plotline/src/schema/transaction.rs:54-61", "plotline/src/schema/transaction.rs:242-254", "plotline/src/schema/guard.rs:36-44", "plotline/src/schema/guard.rs:81-89", "plotline/src/schema/resource.rs:78-93", "plotline/src/deref.rs:96-118"]}
{"id": "C100", "title": "Save and Delete never block unless a trigger asks for what an enclosing call holds", "statement": "If no trigger of the schema opens a top-level transaction, read or write guard, nor accesses a target or resource in conflict with an access it is nested in (or with another component of the same tuple), then, between operations, saving or deleting any node through the schema never blocks, nor does any program that likewise never asks for what it holds. With triggers ranked so that each only fires lower ones, Save and Delete always come back.", "quantifier": "all schemas, states between operations, programs, nodes and ids", "why_tests_cant": "Absence of deadlock for every set of well-behaved triggers.", "anchors": ["plotline/src/schema/transaction.rs:54-61", "plotline/src/schema/transaction.rs:242-254", "plotline/src/schema/resource.rs:78-93", "plotline/src/schema/trigger.rs:60-75"]}
{"id": "C101", "title": "A context gathers exactly what is registered on it and what committed sub-transactions bring", "statement": "After any run that comes back, what is pending in a context that was open before is what was pending, followed in order by the operations registered on it and, for each sub-transaction committed into it, all that the sub-transaction's context gathered. A sub-transaction brings that if its closure succeeds and leaks none of its contexts, and nothing otherwise. A trigger given as a closure, which has no save nor delete on the context it is given, adds exactly what the sub-transactions it commits bring; if it commits none, every open context shows the same nodes afterwards, even if the trigger fails or panics.", "quantifier": "all schemas, programs, triggers, contexts and states", "why_tests_cant": "Holds of every nesting of sub-transactions and every trigger.", "anchors": ["plotline/src/schema/transaction.rs:129-166", "plotline/src/schema/transaction.rs:440-475", "plotline/src/schema/trigger.rs:21-37"]}
{"id": "C102", "title": "What a program does not look at does not matter to it", "statement": "Take two states of a schema that differ only in nodes whose ids are never asked for, in targets and resources that are never accessed, and in triggers of schedules never executed, by a program and by the triggers it may execute. Then the program ends in the same way from both or from neither, publishes, reads and logs the same, asks for the same locks and registers the same operations, and leaves states that differ at most there. Save itself asks for no node and Delete for no other than the one deleted, so their outcome does not depend on the rest of the graph unless a trigger's does.", "quantifier": "all schemas, programs, pairs of states and choices of what is hidden", "why_tests_cant": "Independence compares all pairs of states.", "anchors": ["plotline/src/schema/ops/save.rs:25-38", "plotline/src/schema/ops/delete.rs:28-48", "plotline/src/schema/transaction.rs:370-400"]}
{"id": "C103", "title": "A trigger changes nothing for programs that never execute its schedule", "statement": "Registering a trigger leaves the schema's state as it is and changes neither the outcome, nor the final state, nor anything published, logged, locked or registered, of any program that executes the trigger's schedule neither itself nor by the triggers it executes; for instance a Delete trigger does not matter to saves whose triggers delete nothing.", "quantifier": "all schemas, schedules, triggers, programs and states", "why_tests_cant": "Quantifies over all programs and all triggers.", "anchors": ["plotline/src/schema/trigger.rs:95-126", "plotline/src/schema/mod.rs:72-84"]}
{"id": "C104", "title": "An operation nested in a trigger has its own target", "statement": "If triggers access no other target than that of the context they are given, a Save or Delete executed in a sub-transaction of the context of an outer operation leaves the outer operation's target as it is, and its outcome, its effect on the graph and on pending operations and on every other target and resource do not depend on what the outer target holds.", "quantifier": "all schemas, states, contexts, nodes, ids and targets", "why_tests_cant": "Quantifies over all triggers and all contents of the outer target.", "anchors": ["plotline/src/schema/ops/save.rs:25-38", "plotline/src/schema/ops/delete.rs:28-48", "plotline/src/schema/transaction.rs:449-452"]}
{"id": "C105", "title": "The plugin's search tree answers overlap queries about the nodes in the graph", "statement": "Starting from an empty graph and an empty search tree, after any history of returning top-level saves of new nodes and deletes, with intervals whose lower bounds tell them apart and whose lower bounds do not exceed their upper bounds, iterating the plugin's tree over a query interval visits exactly the intervals of the nodes now in the graph that share a bound with the query, each as often as the extractor returns it. intersects answers yes only if such an interval exists, and if nothing has been deleted also whenever one exists.", "quantifier": "every schema with the plugin, every such history, every extractor, every query interval", "why_tests_cant": "unbounded histories and queries, arbitrary extractors", "anchors": ["plugins/interval/src/plugin.rs: lo, hi, on_save, on_delete", "plugins/interval/src/tree.rs: intersects, for_each"]}
{"id": "C106", "title": "Pending changes matter only by what they amount to", "statement": "Two states that agree on the graph, its lock, the resources and targets, what was leaked, and, for every context and id, on what the operations pending in that context do to that id last (saved as which node, deleted, or nothing), are indistinguishable: every program ends from both with the same outcome and output and leaves states that agree likewise, or runs for ever from both. No user code may panic in the middle of a commit.", "quantifier": "all schemas, programs, pairs of states, executions", "why_tests_cant": "quantifies over all programs, triggers and pairs of states", "anchors": ["plotline/src/schema/transaction.rs: Context::get, Context::save, Context::delete, commit", "plotline/src/graph/mod.rs"]}
{"id": "C107", "title": "Pieces of transactional code can be replaced by equivalent ones anywhere", "statement": "Replacing pieces of a program and of the triggers of its schema, at any place and any number of times, leaves its outcome, the graph, the resources, the output and what is pending as they were, and whether it ends at all, for these laws: an operation followed on the same context by one about the same node can be left out; two operations in a row on one context about different nodes can be swapped; code that uses only a fresh sub-transaction's context and returns Ok can be run on the outer context instead; a sub-transaction that registers operations and returns an error can be left out; reading a node just saved or deleted on that context can be replaced by what was saved; a read can be repeated, or left out if unused.", "quantifier": "all schemas, programs, places, states and executions", "why_tests_cant": "quantifies over all surrounding programs and all triggers", "anchors": ["plotline/src/schema/transaction.rs: Tx::with, Context::get, Context::save, Context::delete, commit", "plotline/src/schema/ops/save.rs"]}
{"id": "C108", "title": "Each line of a listing is a string literal of an id", "statement": "Each line printed by a listing is a string literal of the id it stands for: between double quotes, every character by itself, or by its short escape, or, for control characters without one and those that the tables of std do not show, by its code in lower-case hexadecimal digits without leading zeros; bytes that are no character are given one by one by two upper-case hexadecimal digits; no character that is shown is escaped other than quotes and backslashes. A literal is of one sequence of bytes only, whatever the tables.", "quantifier": "every directory, every extension, every file name, Unicode or not", "why_tests_cant": "all file names", "anchors": ["plotline-cli/src/document.rs: DocumentCli::execute"]}
{"id": "C109", "title": "A schema works the same among others", "statement": "A program and triggers that use one schema end the same, with the same effect on that schema, whatever other schemas the process holds and whatever their state, and leave those alone. More generally a program leaves alone every schema that neither it nor, transitively, the triggers of the schemas it uses use, however it ends.", "quantifier": "all schemas, programs, states of the other schemas, executions", "why_tests_cant": "quantifies over all programs and all other schemas", "anchors": ["plotline/src/schema/mod.rs", "plotline/src/schema/transaction.rs", "plotline/src/schema/trigger.rs"]}
{"id": "C110", "title": "What holds of programs on one schema holds of each schema of many", "statement": "Whatever a program and triggers that use several schemas do to one of them, some program of that schema alone does from the same state, with the same end. In particular, once a program comes back, its graph and resource locks are as they were in every schema, and no lock of a target registered meanwhile is held.", "quantifier": "all schemas, triggers across schemas, programs, executions", "why_tests_cant": "quantifies over all programs and executions", "anchors": ["plotline/src/schema/transaction.rs", "plotline/src/schema/resource.rs", "plotline/src/schema/guard.rs"]}
{"id": "C111", "title": "Transactions on different schemas are not atomic together", "statement": "A root transaction on one schema whose closure fails or panics leaves that schema's graph as it was, and leaves every other schema as the closure left it: what the closure or the triggers it ran committed to the others stays. One that succeeds publishes exactly what its context showed, in its own schema, and nothing in the others.", "quantifier": "all schemas, closures that use other schemas, states, executions", "why_tests_cant": "quantifies over all closures and triggers", "anchors": ["plotline/src/schema/transaction.rs: Tx::with", "plotline/src/schema/ops/save.rs"]}
{"id": "C112", "title": "Schemas do not block one another", "statement": "A root transaction, read guard or write guard on a schema waits for that schema's lock only: it blocks for ever if its own schema is taken by the same thread, and otherwise comes back whenever its closure does, whatever is open on the other schemas.", "quantifier": "all schemas, closures, states, executions", "why_tests_cant": "quantifies over all closures and over states of locks", "anchors": ["plotline/src/schema/transaction.rs: Tx::with", "plotline/src/schema/mod.rs: Schema::read, Schema::write"]}
{"id": "C113", "title": "What a run of the command line logs", "statement": "A run of the command line logs, in this order: one error for each item of the walk that failed; one for the base directory, when it is met, if its own name matches the pattern and has an extension (its id cannot be computed); then one warning if the command is a deletion that ends with 'nothing to apply'. It logs nothing else, and nothing at all if the extension makes no regular expression.", "quantifier": "every base directory, extension, walk with any errors, command", "why_tests_cant": "all walks and names", "anchors": ["plotline-cli/src/repository.rs: LocalDocumentRepository::all", "plotline/src/schema/ops/delete.rs: Delete::execute", "plotline-cli/src/main.rs"]}
{"id": "C114", "title": "A lazy document's absence is never silent", "statement": "In any interleaving of any number of calls of try_deref on documents of the local repository, a call that answers None logs exactly one error, about that document's id: the repository's if it did not find the document, else 'document not found', in which case the document was found and every later call answers it. A call that answers a document, or has not returned, logs nothing.", "quantifier": "all schedules, numbers of threads, repository behaviours", "why_tests_cant": "all interleavings", "anchors": ["plotline/src/document/lazy.rs: LazyDocument::try_deref", "plotline-cli/src/repository.rs: LocalDocumentRepository::find_by_id"]}
{"id": "C115", "title": "Reading a lazy document through a graph does not load it in the graph", "statement": "Graph::get and NodeProxy::try_deref give copies of the nodes. As long as nobody dereferences the document stored in the graph itself, which takes iterating the graph, each copy of a document that was built unloaded starts unloaded: dereferencing it asks the repository once and answers what the repository answers then. So two readers of the same node of an unchanged graph may get different documents, or one of them none. The document a proxy gives is its own: always the same one, never the one in the graph, and given by no other proxy.", "quantifier": "every history of documents, graph operations, proxies and interleaved steps of calls, every document and id, every answer of the repository", "why_tests_cant": "tests of lazy documents use one document, and tests of proxies use nodes without interior mutability", "anchors": ["plotline/src/graph/mod.rs:57-71", "plotline/src/graph/proxy.rs:25-77", "plotline/src/document/lazy.rs:25-73", "plotline-cli/src/document.rs:69"]}
{"id": "C116", "title": "A document loaded in the graph is loaded for everyone", "statement": "Once the document stored in a graph has its content, because it was made with it or because a call of try_deref on it returned it, every copy made of it later, by get or by dereferencing a proxy for the first time, has that content: every call on the copy, whatever happens meanwhile, answers it and never asks the repository.", "quantifier": "every history before, between and after, every interleaving of calls, every document and content", "why_tests_cant": "requires histories of several copies and interleaved calls", "anchors": ["plotline/src/graph/mod.rs:44-71", "plotline/src/graph/proxy.rs:73-77", "plotline/src/document/lazy.rs:31-73"]}
{"id": "C117", "title": "How long guards live does not matter to what is read", "statement": "For every program that opens read and write guards of the schema, keeps any number of them, drops them in any order, leaks some with mem::forget, reads and writes through them, and uses transactions in between: every answer of the calls that were carried out is the one they would give if each access through a guard opened a guard of its own and dropped it at once, and a transaction in whose commit user code panics had been dropped and the calls the commit made so far had been made so. A guard that was neither dropped nor leaked can always be used; iterating over it gives the nodes of the graph after those events.", "quantifier": "every initial graph, every sequence of events on guards, transactions and contexts", "why_tests_cant": "requires all orders of opening, using, dropping and leaking guards", "anchors": ["plotline/src/schema/guard.rs:13-95", "plotline/src/schema/mod.rs:102-110"]}
{"id": "C118", "title": "Exactly which calls wait for ever", "statement": "As long as every call so far has returned, a call waits for ever exactly if it asks for the graph (read, write, or the first context of a top-level transaction) and the graph is held in a way that excludes it: by a top-level transaction that has had a context and has not ended, by a write guard that was not dropped, or, if it asks to write, by a read guard that was not dropped. Nothing after such a call happens.", "quantifier": "every history, every call", "why_tests_cant": "requires every history; a test that deadlocks cannot observe anything", "anchors": ["plotline/src/schema/guard.rs:31-95", "plotline/src/schema/transaction.rs:403-416"]}
{"id": "C119", "title": "A guard freezes the graph; a leaked one for ever", "statement": "While a read guard is kept the nodes of the graph do not change, whatever else happens; while a write guard is kept they change only by calls through it. If a guard, or a top-level transaction that has had a context, is leaked, then the nodes never change again and every later request to write waits for ever, as does every request to read if what was leaked was a write guard or a transaction.", "quantifier": "every history before, between and after", "why_tests_cant": "requires every continuation, without bound", "anchors": ["plotline/src/schema/guard.rs:13-95", "plotline/src/schema/transaction.rs:403-416"]}
{"id": "C120", "title": "A guard of a target or resource shows the last value", "statement": "Through a guard of a target or resource that is not empty, try_deref shows the value last put there through a write guard by any thread, or the one the target was given; try_deref_mut gives access to that value. While a guard is kept the value changes only through it, and not at all if it is a read guard.", "quantifier": "every history of handles, clones, guards, threads and panics", "why_tests_cant": "requires every interleaving of threads and every order of taking, using, dropping and leaking guards", "anchors": ["plotline/src/schema/resource.rs:39-143", "plotline/src/schema/transaction.rs:193-311", "plotline/src/deref.rs:4-37"]}
{"id": "C121", "title": "Which guards are empty", "statement": "A guard is empty exactly if, when it was taken, its handle referred to no value, or to one that was spoilt: a write guard of it, taken by a thread that was not panicking, had been dropped by that thread while panicking. An error is logged when a guard is taken exactly if the value is spoilt. Nobody holds a spoilt value.", "quantifier": "every history of handles, clones, guards, threads and (nested) panics", "why_tests_cant": "requires every history, including destructors that take guards during unwinding", "anchors": ["plotline/src/schema/resource.rs:72-143", "plotline/src/schema/transaction.rs:232-301"]}
{"id": "C122", "title": "When taking a guard waits", "statement": "A request for a guard waits exactly while a guard of the same value that is not empty has not been dropped and one of the two is for writing; nothing else waits. A write guard is the only guard of its value. A leaked guard excludes for ever, and the value never changes again.", "quantifier": "every history of handles, clones, guards, threads and panics", "why_tests_cant": "requires every interleaving and every continuation; a test that waits cannot observe anything", "anchors": ["plotline/src/schema/resource.rs:72-143", "plotline/src/schema/transaction.rs:232-301"]}
{"id": "C123", "title": "Which accesses report a poisoned graph", "statement": "Every call that takes the graph's lock (schema.read(), schema.write(), the first context of a top-level transaction) and returns logs \"posioned graph\" once if a write guard, a transaction's included, that was taken while the thread was not panicking has been dropped while it was panicking, and nothing otherwise. No other call reports it. Once so, it stays so.", "quantifier": "every history of guards, transactions, contexts, leaks and (nested) panics, also of user code in commits, with destructors that use the schema while unwinding", "why_tests_cant": "requires every order of taking and dropping guards around every placement of panics and of API calls in destructors", "anchors": ["plotline/src/schema/guard.rs:31-46", "plotline/src/schema/guard.rs:76-91", "plotline/src/schema/transaction.rs:403-415"]}
{"id": "C124", "title": "Panics by themselves change no answer", "statement": "What a call answers depends only on the calls made before it, drops included, not on where among them panics began or ended.", "quantifier": "every two histories with the same calls", "why_tests_cant": "requires all placements of panics in all histories", "anchors": ["plotline/src/schema/guard.rs:31-46", "plotline/src/schema/guard.rs:76-91", "plotline/src/schema/transaction.rs:49-96"]}
{"id": "C125", "title": "A commit that has no effect is logged, and only such a one", "statement": "The end of a transaction that succeeded logs \"committing uninitialized transaction\" exactly if it is a top-level one that never had a context, and \"commiting transaction with contexts yet in use\" exactly if one of its contexts was leaked. If it logs either, whatever is called afterwards answers and logs as if the transaction had been dropped. If a top-level one logs neither, the graph afterwards is what a context made just before would have shown.", "quantifier": "every history of guards, transactions, contexts, leaks and panics, also of user code in commits, every continuation", "why_tests_cant": "requires every history and every later observation", "anchors": ["plotline/src/schema/transaction.rs:62-96", "plotline/src/schema/transaction.rs:136-168"]}
{"id": "C126", "title": "An extension without special characters is compared in characters", "statement": "With an extension made of characters that are not special in regular expressions, U+FFFD not excluded, an entry is listed exactly when its name ends in a dot and bytes that read as those characters, where every longest piece of bytes that begins no complete UTF-8 character reads as U+FFFD; its id loads the entry itself exactly when the name is a dotless stem followed by a dot and the very bytes of the extension.", "quantifier": "every such extension, every visible entry at any depth, valid UTF-8 or not", "why_tests_cant": "all byte sequences as names", "anchors": ["plotline-cli/src/repository.rs: LocalDocumentRepository::all, find_by_id"]}
{"id": "C127", "title": "Which listed entries are loaded by their own ids, whatever the extension", "statement": "For every extension that makes a regular expression (not empty, without '/'), a listed entry named N has the id made of its directories and N without its last extension M, and looking this id up reads the entry itself exactly when N is M without its last extension, followed by a dot and the extension as written.", "quantifier": "every extension in the supported fragment, every visible entry at any depth", "why_tests_cant": "all patterns and names", "anchors": ["plotline-cli/src/repository.rs: LocalDocumentRepository::all, find_by_id"]}
{"id": "C128", "title": "An extension that is a class lists names ending in one character of it", "statement": "With the extension '[S]' or '[^S]', S being characters and ranges of characters, an entry is listed exactly when its name ends in a dot and the bytes of one character (or of a piece that reads as U+FFFD) that is, or is not, in S; newlines are in the negated class like any other character.", "quantifier": "every S without characters special in classes, every visible entry at any depth", "why_tests_cant": "all classes and names", "anchors": ["plotline-cli/src/repository.rs: LocalDocumentRepository::all"]}
{"id": "C129", "title": "The plugin's search tree records all that transactions do, kept or not; the graph records what is kept", "statement": "Take any sequence of top-level transactions whose closures read, apply Save and Delete to their context, call Context::save and Context::delete directly, run nested transactions to any depth and catch their panics, branching on every answer, and return Ok, return an error or panic. On a schema with the interval plugin, at rest, the sequence ends iff the following replay ends: insert every interval of every node given to Save and delete every interval of every node found by Delete, in the order of the calls, whether or not the transactions they were made in were committed. If it ends, the tree is the result of that replay, the graph holds exactly what the successful transactions (nested in successful ones) saved and deleted, and the schema is at rest again. Direct calls of Context::save and Context::delete leave no trace in the tree.", "quantifier": "every schema with the plugin, every tree and graph it may hold, every sequence of such transactions, every node type and interval extractor", "why_tests_cant": "unbounded nesting and branching, arbitrary extractors, and non-termination", "anchors": ["plugins/interval/src/plugin.rs: on_save, on_delete", "plotline/src/schema/ops/save.rs: execute", "plotline/src/schema/ops/delete.rs: execute", "plotline/src/schema/transaction.rs: with, commit"]}
{"id": "C130", "title": "Which command lines are accepted, and what they mean", "statement": "A command line is accepted iff it has the form: options; doc; options and at most one id; delete, list, ls or save; options, for save at most one content, and possibly -- before the content or at the end. Options are --context/-C with a value that is not empty and --extension/-e with a value of characters, in any of the forms --name V, --name=V, -nV, -n=V, -n V, at most once each in each of the three places; the innermost one holds, then the working directory or md. A word on its own (an id, a content before --, a separate value) does not begin with a dash unless it is one; after doc it is none of delete, list, ls, save, help. An accepted command line has exactly one meaning, and the process does what the command with that meaning does; any other command line does nothing to documents or disk.", "quantifier": "every list of arguments (any bytes), every working directory, every disk", "why_tests_cant": "infinitely many command lines; acceptance is stated in both directions", "anchors": ["plotline-cli/src/main.rs: Cli, main", "plotline-cli/src/lib.rs: CliCommand", "plotline-cli/src/document.rs: DocumentCommand, DocumentSubCommand, DocumentSaveArgs"]}
{"id": "C131", "title": "Exactly the commands that can be asked for on the command line", "statement": "For a context, an extension, an id and an action, each possibly absent, there is a command line that is accepted with that meaning iff the context is not empty, the extension, the id and the content of a save are UTF-8, and the id neither begins with a dash (unless it is a single dash) nor is one of delete, list, ls, save, help.", "quantifier": "every context, extension, id and action", "why_tests_cant": "the negative half quantifies over all command lines", "anchors": ["plotline-cli/src/main.rs: Cli", "plotline-cli/src/document.rs: DocumentCommand"]}
{"id": "C132", "title": "Which listed documents the command line can delete", "statement": "A document that doc list shows can be deleted by some command line with the same context and extension iff all names on its path are UTF-8 and the first does not begin with a dash, unless the id is a single dash. A document named like a subcommand is deleted by giving its name with a trailing slash; one whose id begins with a dash is out of reach of every command line, also with --. Every accepted command line that asks to delete a path equal to the document's ends successfully.", "quantifier": "every context, extension and directory contents, every listed document, every command line", "why_tests_cant": "the negative half quantifies over all command lines", "anchors": ["plotline-cli/src/document.rs: DocumentCommand, DocumentCli::execute", "plotline-cli/src/repository.rs: all", "plotline-cli/src/main.rs: main"]}
{"id": "C133", "title": "Without a working directory every run panics, even with --context", "statement": "If the working directory cannot be told (it was removed, for instance), every run ends in a panic before anything else, whatever the arguments, including those that give --context. If it can, a run whose arguments give a context does the same in every working directory from which the disk looks the same.", "quantifier": "every list of arguments, every disk, every working directory", "why_tests_cant": "quantifies over all arguments", "anchors": ["plotline-cli/src/main.rs: DEFAULT_CONTEXT, Cli"]}
{"id": "C134", "title": "Several interval plugins on one schema", "statement": "Interval plugins can be installed one after the other. Installing one replaces the search tree resource of its interval type by an empty one and the extractor of its type by the new one, and adds its triggers after those already there. Plugins with the same interval type therefore share one search tree, emptied by the last install, and installing the same plugin twice makes every interval be inserted and deleted twice. After any sequence of top-level transactions (nested ones in them, kept, failed or panicking) each search tree is what results from inserting the intervals of every node given to Save and deleting those of every node found by Delete, in order, from all plugins that share it, in the order of installation. The nodes are those of the transactions kept. The sequence comes back unless, for one of the search trees, one of these deletions never returns, and then it never returns.", "quantifier": "every number of plugins, all types, extractors and intervals, every sequence of transactions", "why_tests_cant": "unbounded numbers of plugins and transactions, non-termination", "anchors": ["plugins/interval/src/plugin.rs: IntervalPlugin::install, on_save, on_delete", "plotline/src/schema/mod.rs: with_plugin, with_resource, with_trigger"]}
{"id": "C135", "title": "Panics of user code inside the interval plugin", "statement": "If an extractor panics, the Save or Delete that asked it panics, its transaction is not kept, and every search tree stays as it is. If user code panics while a search tree is being written (a bound, a comparison), the transaction is not kept either, the plugins installed later are not asked about that node, and that search tree is lost: no later access finds it, for ever, and the plugin silently does nothing with it from then on, while the other search trees go on being maintained and keep what they recorded in the transaction that was lost. Search trees are lost in no other way. Once all are lost and no extractor panics, transactions do exactly what they do without plugins and always come back. The map and the trees after any transaction or sequence of transactions, and how it ends, are determined by this.", "quantifier": "every number of plugins, all extractors, all panics of user code as a function of tree and interval, every sequence of transactions", "why_tests_cant": "arbitrary placement of panics in unbounded sequences; for ever", "anchors": ["plugins/interval/src/plugin.rs: on_save, on_delete", "plugins/interval/src/tree.rs: insert, delete", "plotline/src/schema/resource.rs: Resource", "plotline/src/schema/transaction.rs"]}
{"id": "C136", "title": "Programs and their single calls", "statement": "Take a program over a schema nobody else uses, in which every call on a context is made on a context in scope (given to the closure of a transaction around it, or to the trigger); the schema's triggers likewise. Every run of it that ends, blocked or not, is exactly one history of single calls: background() or foreground(ctx), the creation of its context, the calls on it, the end of the context, the commit (possibly broken off by a panic of user code) or the drop of the transaction; read() or write() of the schema, the calls on the guard, its drop; the making of targets, Res and Target handles, their read() and write() in order, try_deref and try_deref_mut in order up to the first that finds nothing, the drop of those guards in reverse order; panics and the catch_unwind that stops them. Each of these calls, on its own, answers and logs what it does in the run; what is seen from outside in its order (errors logged for the graph, for targets and for resources included), the values computed, the graph, the targets and resources, and the poison of all their locks are the same at the end; and if the program comes back, every transaction, context and guard is at its end, but for contexts that were leaked. Conversely, whenever single calls answer the program so, the program runs so; a program that never ends has no such history. What a program calls next is determined by the answers so far. Save and Delete are such programs.", "quantifier": "every schema, trigger, program, number of nested transactions and guards (of the graph, of targets, of resources), panic, leak; ended runs of every outcome", "why_tests_cant": "quantifies over all programs and all their runs", "anchors": ["plotline/src/deref.rs", "plotline/src/schema/guard.rs", "plotline/src/schema/ops/delete.rs", "plotline/src/schema/ops/save.rs", "plotline/src/schema/resource.rs", "plotline/src/schema/transaction.rs", "plotline/src/schema/trigger.rs"]}
{"id": "C137", "title": "A commit broken off by a panic, in any history", "statement": "Top-level transactions end while user code (Clone, Ord or Drop of ids and nodes) may panic in the commit, in any history of transactions, contexts, guards, leaks and panics. It can panic once k operations are applied exactly if the transaction holds the graph and was not leaked, all of its contexts were dropped, and it has gathered at least one operation and at least k. Then the calls made on the graph are the first k operations that the transaction gathered, what sub-transactions brought included, in order, and the graph changes by these alone. Whatever is called afterwards answers as if the transaction had been dropped and those calls had been made through guards of their own; in particular the graph is free. The library logs nothing, and if the graph was locked outside of a panic every later call that takes it reports it poisoned.", "quantifier": "every history, every transaction, every k, every continuation", "why_tests_cant": "requires every history around and every place of the panic", "anchors": ["plotline/src/schema/transaction.rs:49-115", "plotline/src/schema/guard.rs:76-91"]}
{"id": "C138", "title": "Panics of user code in the interval tree", "statement": "User code run by an IntervalSearchTree (lo and hi of intervals, comparisons of bounds and intervals, the closure of for_each_intersection) may panic in any of its calls. An insert or delete that panics leaves the tree empty, whatever was in it; a query that panics leaves it as it was, and the closure has been called with a beginning of the intervals it would have been called with. So in any history of calls, any of them broken off, the tree is the one made by the insertions and deletions since the last that was broken off; without deletions, intersects and for_each_intersection answer about exactly the intervals inserted since. Every call can panic, but those on an empty tree that insert nothing.", "quantifier": "every history of calls, every call of user code that panics", "why_tests_cant": "requires every place of the panic in every history", "anchors": ["plugins/interval/src/tree.rs:24-73", "plugins/interval/src/node.rs:74-235", "plugins/interval/src/lib.rs:26-41"]}
{"id": "C139", "title": "How much of the interval tree a call looks at", "statement": "insert, delete and intersects follow one path of the tree: the calls of user code they make (lo, hi, comparisons) are at most 6h + 1, 7h + 1 and 22h, where h is the height of the tree; for_each_intersection makes at most 23 for each interval stored. intersects looks at exactly the intervals on the path of its search; for_each_intersection looks at all but those in left subtrees whose stored maximum is below the query. In particular it looks at every interval that begins after the query ends, though none of them is visited.", "quantifier": "every tree, every query", "why_tests_cant": "requires every tree and every query", "anchors": ["plugins/interval/src/node.rs:74-208", "plugins/interval/src/lib.rs:26-41"]}
{"id": "C140", "title": "An interval whose bound panics can be indexed unnoticed and takes the search tree with it later", "statement": "While the interval plugin indexes a node, user code panics at the first of the calls of Interval::lo, Interval::hi, comparisons of bounds and of intervals that panics, in the order in which IntervalSearchTree::insert and ::delete make them for one interval of the node after the other; the tree is lost then. No tree is lost as long as these calls do not panic for the intervals ever inserted and those being written. But inserting into an empty tree asks for no lower bound: an interval whose lo() panics is let in, and as long as it is at the root every call on the tree but its own deletion asks for its lo(). So saving a node with such an interval into an empty index succeeds, the next save of any node that has an interval panics and changes nothing in the graph, and from then on the search tree is never found again.", "quantifier": "for all sets of calls of user code that panic, all trees and lists of intervals, all histories of insertions and deletions; for all schemas with the plugin, all extractors and all nodes, and all sessions after that", "why_tests_cant": "needs every set of panicking calls of user code at every point of every history", "anchors": ["plugins/interval/src/tree.rs:47-54", "plugins/interval/src/node.rs:190-208", "plugins/interval/src/node.rs:80-97", "plugins/interval/src/plugin.rs:83-85", "plugins/interval/src/plugin.rs:118-120", "plotline/src/schema/resource.rs"]}
{"id": "C141", "title": "Every node given to a schema is in exactly one place, and is dropped under the graph's lock unless a top-level transaction is rolled back", "statement": "After any history of transactions, contexts, guards, leaks and commits that panic, every node that was in the graph or was given to the schema (by Context::save, Graph::insert or Graph::with_node) is in exactly one place: in the graph, waiting in the buffer of a transaction, dropped, or given back to the caller of Graph::insert or Graph::remove; no node is dropped twice, published twice or lost. Once every transaction has ended and no context was leaked, nothing waits. What was gathered by a transaction that was leaked with mem::forget, or one of whose contexts was, is neither published nor dropped, however it ends and whatever happens later. A transaction, none of whose contexts was leaked, that ends without being committed drops the nodes it gathered, in the order they were saved; a committed top-level transaction drops the nodes that its changes take out of the graph one after the other, and a sub-transaction none; a commit that panics drops what its first changes replaced and then the nodes of the changes it did not get to. A node is dropped while the graph is locked for writing (when a commit or with_node replaces it, a commit deletes it, a commit panics, or a sub-transaction is rolled back), so that a destructor that calls Schema::read or Schema::write waits for ever, with one exception: the nodes a top-level transaction gathered are dropped after its guard when it ends without being committed.", "quantifier": "for all histories of calls, all ids and nodes, with any nesting of transactions, any guards, contexts and transactions leaked, and commits that panic at any operation", "why_tests_cant": "needs the ownership of every node over every history, with leaks and panics at every point", "anchors": ["plotline/src/schema/transaction.rs:25-32", "plotline/src/schema/transaction.rs:53-96", "plotline/src/schema/transaction.rs:123-166", "plotline/src/graph/mod.rs:79-109", "plotline/src/schema/guard.rs"]}
{"id": "C142", "title": "User code that uses the schema in the middle of calls: each call acts at once when it finishes", "statement": "PartialEq, Ord, Clone and Drop of ids and nodes run in the middle of Context::get and contains, of calls on a guard of the graph and of commits. Whatever they call on the schema, its transactions, contexts and guards, to any depth, and wherever they panic, everything is answered as if each call had happened at once when it finished: a read that panics as if it had not been made, a commit that panics as one that crashed after the operations it had applied. While only reads are unfinished, the graph is as the finished calls left it. A commit or a call that changes the graph has everything to itself: no other call is unfinished, and calls made meanwhile are rejected by rustc or wait for ever, but for new transactions and the ends of transactions that never had a context. A call waits for ever exactly if it asks for the graph while someone excludes that, or puts operations (save, delete, commit of a sub-transaction) into a transaction that an unfinished read has come to: a read goes through the operations of its context's own transaction, then of each outer one, and keeps all it has come to until it returns. The innermost unfinished call finishes if user code lets it.", "quantifier": "for all histories of calls that begin, go on and panic, nested to any depth, for all ids and nodes, any nesting of transactions, any guards, contexts and transactions leaked", "why_tests_cant": "needs every interleaving of user code with the steps of every call, with panics and further calls at every point", "anchors": ["plotline/src/schema/transaction.rs:62-96", "plotline/src/schema/transaction.rs:136-166", "plotline/src/schema/transaction.rs:363-401", "plotline/src/schema/transaction.rs:455-472", "plotline/src/graph/mod.rs:57-109", "plotline/src/schema/guard.rs:20-74"]}
{"id": "C143", "title": "Schemas of lazy documents: copies, ownership and when the repository is asked", "statement": "The command line has a Schema<LazyDocument>. To the schema its documents are nodes like any other: every call is answered as with plain nodes; but Context::get and Graph::get give new documents, copies of the one found with the content it has at that moment, while insert and remove give back the very document that was in the graph. Every document is in one place only: with user code, waiting in one transaction, or in the graph. Dereferencing a document that has content (made with it, copied from one that had it, or loaded) gives that content without asking the repository, for good; dereferencing one that has none asks the repository for its id and keeps what that gives. A document gets content only through its owner, or through a reference into the graph got by iterating over a guard: one that waits in a transaction is never loaded. So once a document has content every later copy has it and asks nothing, and until then each copy asks the repository on its own: loading a copy loads neither the document nor later copies.", "quantifier": "for all histories of building, making, cloning, dropping and dereferencing documents and of calls on the schema, its transactions, contexts and guards, leaked or not, for all answers of the repository", "why_tests_cant": "the sharing of cells between copies shows only in long histories mixing transactions, guards and dereferences, with every answer of the repository", "anchors": ["plotline/src/document/lazy.rs:13-115", "plotline/src/schema/transaction.rs:363-401", "plotline/src/schema/transaction.rs:455-472", "plotline/src/graph/mod.rs:44-109", "plotline-cli/src/document.rs:64-70"]}
{"id": "C144", "title": "Which user code the schema's calls run, and what its panics leave behind", "statement": "Context::get and Context::contains of an id look at the pending operations newest first, their own context's before those of the contexts around it, up to the first on that id: for each the node's id() (nothing for a deletion), then ==. If none is found the graph's map is searched with Ord. get then clones the node it answers and no other; contains clones nothing; neither drops anything. Context::save, Context::delete and the commit of a sub-transaction run no user code at all; Save clones its target once; Delete clones the id, then the node twice, and drops the id and one copy. A commit runs, operation by operation, id() and clone of the id of a saved node, the search, then changes the map, then drops the key not needed and the node replaced or removed. Any of these calls may panic: the call then panics at once, having made exactly the calls before. A read, save or delete that panics changes nothing; a commit that panics has made exactly the changes before the panic and poisons the graph's lock. The lock of a list of pending operations is never poisoned, so that the two errors about poisoned transactions and contexts are never logged and the code for poisoned lists never matters.", "quantifier": "for all histories of calls on contexts and commits, all nestings of transactions, all ids, all searches of the map, all panics of user code depending on all calls before", "why_tests_cant": "every subset of the calls of user code may panic, in every history; that no lock is ever poisoned is a statement about all of them", "anchors": ["plotline/src/schema/transaction.rs:69-96", "plotline/src/schema/transaction.rs:140-190", "plotline/src/schema/transaction.rs:363-401", "plotline/src/schema/transaction.rs:455-472", "plotline/src/schema/ops/save.rs:31", "plotline/src/schema/ops/delete.rs:34-37", "plotline/src/graph/mod.rs:57-109"]}
{"id": "C145", "title": "What becomes of the nodes of a program", "statement": "Let a program (triggers and all) run on a schema that nobody else uses. However it ends - it returns, fails, panics or waits for ever - every node that was in the graph or that it gave to a context's save or a write guard is in exactly one place: in the graph, dropped by the schema, given back by a write guard, or waiting in a transaction; and these places hold nothing else. If the program returned or panicked without leaking a context, nothing waits. The schema drops a node while the graph is locked, except at the end of a top-level transaction whose closure failed or panicked.", "quantifier": "for all programs of the model's language (nested transactions, guards, triggers, targets, resources, panics caught or not), all schemas, all graphs, all outcomes", "why_tests_cant": "ranges over all programs and schemas; a lost node or one kept twice is seen only by counting all destructors of all runs", "anchors": ["plotline/src/schema/transaction.rs:140-190", "plotline/src/schema/transaction.rs:305-401", "plotline/src/schema/mod.rs:40-90", "plotline/src/graph/mod.rs:57-109"]}
{"id": "C146", "title": "What plot doc list leaves on a standard output that fails", "statement": "What reaches a standard output open for writing is always the beginning of what the command writes where nothing fails, and all of it unless the process panics (exit status 101). A file that takes only part of what it is given, or whose calls are interrupted, makes no difference. If the file has room for N more bytes (a full disk, a pipe whose reader leaves), exactly the first N bytes of the listing are written, and the process panics if and only if the listing is longer; neither the size of std's buffer nor the pieces in which it formats matter. A standard output that is not open for writing takes nothing and the command succeeds all the same. Commands other than list write nothing and end in the same way whatever the standard output. A panic does not mean that something is missing: the end of the process writes once more what waits.", "quantifier": "for all contexts, extensions, directories and commands, all answers of all calls of write(2) depending on the calls before, all sizes of the buffer, all ways to format a line in pieces", "why_tests_cant": "ranges over all behaviours of the file, all positions of the failure and all directories", "anchors": ["plotline-cli/src/document.rs:94-100", "plotline-cli/src/main.rs:55-81"]}
{"id": "C147", "title": "The calls of user code of the interval plugin, and what a panic in each costs", "statement": "For every saved or deleted node the interval plugin first asks the extractor for its intervals, then the node for its id, and clones the id; if one of these calls panics, the transaction panics and the search tree is as before. Then, for each interval in order, it clones the clone of the id and writes the interval; a panic in any of these calls, including the clone, loses the search tree. If the tree is lost already only the first three calls are made. The calls made are those made without panics, up to the first that panics, and the transaction panics if and only if one does. The id of a node is cloned at most once and its clone at most once per interval, exactly once if the tree survives; nothing else is cloned. Saves compare neither ids nor intervals. Deletions compare an interval of the tree with one of the node only right after its id was found equal to the node's.", "quantifier": "for all nodes, extractors, search trees (present or lost), all sets of calls of user code that panic, all graphs at rest with the plugin installed", "why_tests_cant": "ranges over all choices of panicking calls and all trees", "anchors": ["plugins/interval/src/plugin.rs:16-48", "plugins/interval/src/plugin.rs:64-89", "plugins/interval/src/plugin.rs:99-124"]}
{"id": "C148", "title": "Extensions with repetitions", "statement": "With an extension that is a class of characters (maybe negated) followed by a repetition operator (*, +, ?, {n}, {n,}, {n,m}), a file is listed if and only if its name ends in a dot followed by characters of the class (none of them, if negated), as many as the operator allows. A question mark after any repetition operator, wherever it is in the extension, changes nothing of what is listed.", "quantifier": "every class, operator and numbers, every directory and name, also names that are not Unicode; for the mark, every sequence of items before the repetition and literal characters after it", "why_tests_cant": "all classes, counts and names", "anchors": ["plotline-cli/src/repository.rs: LocalDocumentRepository::all", "plotline-cli/src/main.rs: main"]}
{"id": "C149", "title": "A group of extensions lists both, and opens none", "statement": "With the extension (A|B) or (?:A|B), A and B plain, the files listed are exactly those whose names end in .A or .B (unlike A|B, see C86); but the id of none of them opens the file it was listed for, since ids are looked up with the extension itself.", "quantifier": "every A and B whose characters stand for themselves, every directory and name", "why_tests_cant": "all extensions and names", "anchors": ["plotline-cli/src/repository.rs: LocalDocumentRepository::all, LocalDocumentRepository::find_by_id", "plotline-cli/src/main.rs: main"]}
{"id": "C150", "title": "The whole process, from its arguments to its exit status", "statement": "Every command line accepted, run where the standard output has room for N more bytes, ends in exactly one way, which its arguments, the names of the files and N determine: a delete or save exits with 0 or 1 and the message its id calls for; a list writes the first N bytes of one line per id, a literal of the id, and exits with 0 if that is all of them, otherwise with 101; an extension that makes the pattern invalid exits with 101 and writes nothing. No file is changed by any of them, and what is in the files makes no difference. Where the standard output takes everything, the process is the one of C130.", "quantifier": "every working directory, every accepted list of arguments, every disk, every N, every way the file takes the bytes in parts, every size of std's buffer", "why_tests_cant": "all command lines, all directories, all positions of a failure", "anchors": ["plotline-cli/src/main.rs:14-81", "plotline-cli/src/document.rs:36-115"]}
{"id": "C151", "title": "Extensions with backslashes: what is escaped is listed, and not opened", "statement": "With an extension that is a text T with a backslash before each special character (and maybe before other punctuation), the files listed are exactly those whose names end in .T; every T can be written so. If there is a backslash at all, the id of no listed file opens that file. One more backslash at the end escapes the end of the pattern: the files listed are those with .T$ anywhere in their names, and if T has no dot none of them is opened by its id. A backslash before a digit, a character that is not ASCII or a letter without a meaning makes every command panic.", "quantifier": "every such extension, every directory and name, every command", "why_tests_cant": "all extensions and names", "anchors": ["plotline-cli/src/repository.rs: LocalDocumentRepository::all, LocalDocumentRepository::find_by_id", "plotline-cli/src/main.rs: main"]}
{"id": "C152", "title": "Which strings name a listed document", "statement": "Deleting by an id typed on the command line succeeds exactly when the string spells the id of a listed file: it begins with the first name of that id, and goes on with a slash before each further name, where any number of slashes, and of slashes with a single dot, may be added after any name and at the end. No other string does; in particular none that begins with a slash or with \"./\", none with \"..\", and none that keeps the extension. Otherwise the command ends with Error::Noop. Nothing is printed and no file is touched in either case.", "quantifier": "every directory, every context, every extension in the modelled fragment, every id string", "why_tests_cant": "all strings and directories", "anchors": ["plotline-cli/src/document.rs: DocumentSubCommand::Delete", "plotline-cli/src/repository.rs: LocalDocumentRepository::all", "plotline/src/schema/ops/delete.rs: Delete::execute"]}
