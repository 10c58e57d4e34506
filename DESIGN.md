# Formal model of typelib in Rocq (Coq 8.16.1)

Sources: `/repo` (read as text, never built). Model, specification and proofs: `rocq/theories`.
`properties.jsonl` lists the properties, `MANIFEST.json` maps them to theorems, `seeded/LOG.jsonl`
records the attempts to break the theorems with wrong programs.

## 1. Method

* Every C++ function is modelled by a total Gallina function returning `res A`:
  `Ok a | Throw e | UB k | Fuel`. `UB` is undefined behaviour of the C++ program (out-of-bounds access, bytecode read past
  its end, overwriting or dropping a live container without destroying it, division by zero); `Fuel` is
  "recursion budget exhausted" and is never a normal result. Theorems say `conv f (Ok r)`: with enough fuel, the result is
  `Ok r` — so they prove termination too.
* `size_t` arithmetic is in `N` with an explicit `mod 2^64` where the code can wrap.
* Type descriptions used by the value operations are trees `ty`; type objects used by the registry (identity,
  recursion) are a heap of nodes addressed by ids.
* Memory is a list of cells: `B byte`, or a live container object occupying its `sizeof` cells. A vector object owns its
  capacity and its own cells, so nested containers are nested cells.
* The memory layout bytecode is the flat word list of the C++ code, run by flat interpreters.
* Specifications (`*Spec.v`) are separate and small: they do not use the bytecode or the helpers of the model.
* `Properties_*.v` contain only the property theorems, each closed with `exact`, followed by `Print Assumptions` and
  non-vacuity examples.
* `_refuted` theorems: the code violates the English property; the theorem gives a concrete witness.

## 2. Properties: model, method, outcome

Generated by `tools/gen_design.py` from `properties.jsonl`, `MANIFEST.json` and `tools/how.json`. `partial` means that
the English property is not proved in full; in almost all of these cases the code does not satisfy it, and a `_refuted`
theorem gives a concrete counterexample which the model evaluates; the note says under which hypothesis it holds.

<!-- table -->
| id | property | model and method | outcome |
|----|----------|------------------|---------|
| C01 | dump/load round trip | flat interpreters of the layout bytecode (ValueOps.v) on lists of memory cells; specification `valid`, `same`, image of a value by recursion on types (ValueSpec.v); per-byte expansion of bytecode into atoms, Hoare-style rule for the walk, induction on atoms | proved. bounds: sizes at most 2^63-1 |
| C02 | getDumpSize is exact | flat interpreters of the layout bytecode (ValueOps.v) on lists of memory cells; specification `valid`, `same`, image of a value by recursion on types (ValueSpec.v); per-byte expansion of bytecode into atoms, Hoare-style rule for the walk, induction on atoms | proved. dumps below 2^64 bytes |
| C03 | bounded dump never overruns | flat interpreters of the layout bytecode (ValueOps.v) on lists of memory cells; specification `valid`, `same`, image of a value by recursion on types (ValueSpec.v); per-byte expansion of bytecode into atoms, Hoare-style rule for the walk, induction on atoms | partial. proved for buffers below 2^31 bytes; for larger ones the returned int is negative (refuted part) |
| C04 | truncated input is rejected | flat interpreters of the layout bytecode (ValueOps.v) on lists of memory cells; specification `valid`, `same`, image of a value by recursion on types (ValueSpec.v); per-byte expansion of bytecode into atoms, Hoare-style rule for the walk, induction on atoms | proved. every strict prefix, every valid destination |
| C05 | load is memory safe on arbitrary bytes | for bytes of any shape: memory-free predicates stream/overflows on byte lists (StreamSpec.v), the walk over arbitrary input by induction on the nesting depth of containers (StreamSafe.v) | partial. false in general (integer overflow of count*size with nested containers: out-of-bounds access, refuted witness). Proved for any nesting of containers whenever no container read from the bytes has count*element size of 2^64 or more (predicate overflows of StreamSpec): load throws or yields a valid value, and accepted bytes are the marshalled form of a value of the type (predicate stream); and without that condition for types without nested containers |
| C06 | load overwrites previous container contents | flat interpreters of the layout bytecode (ValueOps.v) on lists of memory cells; specification `valid`, `same`, image of a value by recursion on types (ValueSpec.v); per-byte expansion of bytecode into atoms, Hoare-style rule for the walk, induction on atoms | partial. false in general: an empty container in the stream leaves the old contents; proved when the destination's containers are empty or no container of the source is |
| C07 | load rejects unused input | flat interpreters of the layout bytecode (ValueOps.v) on lists of memory cells; specification `valid`, `same`, image of a value by recursion on types (ValueSpec.v); per-byte expansion of bytecode into atoms, Hoare-style rule for the walk, induction on atoms | partial. rejection proved in full; acceptance of raw images characterised exactly, it fails for padding at the end of the last field (refuted witness) |
| C08 | compare is logical equality | as C01; containers are live objects in cells, leaks and double frees are UB outcomes of the model | proved. types with a layout (pointers allowed outside arrays and containers) |
| C09 | copy duplicates the value | as C01; containers are live objects in cells, leaks and double frees are UB outcomes of the model | proved. memory after the value untouched; a leak is an UB outcome of the model |
| C10 | zero clears the value | as C01; containers are live objects in cells, leaks and double frees are UB outcomes of the model | proved.  |
| C11 | init produces a valid value | as C01; containers are live objects in cells, leaks and double frees are UB outcomes of the model | proved.  |
| C12 | destroy releases everything once | as C01; containers are live objects in cells, leaks and double frees are UB outcomes of the model | proved.  |
| C13 | layout_of fails exactly on unsupported types | MemLayout::Visitor, merge and simplify on flat words (Layout.v) against what a layout must say byte by byte (LayoutSpec.v); induction on types | partial. default flags proved in full; with accept_pointers false below arrays and containers (refuted witness), exact condition proved |
| C14 | layout describes the type byte for byte | MemLayout::Visitor, merge and simplify on flat words (Layout.v) against what a layout must say byte by byte (LayoutSpec.v); induction on types | proved. remove_trailing_skips=true |
| C15 | layout_of handles empty arrays and empty elements | MemLayout::Visitor, merge and simplify on flat words (Layout.v) against what a layout must say byte by byte (LayoutSpec.v); induction on types | partial. false for arrays and containers of empty structures: length_error, or a wrong layout. Proved for empty structures as fields and for arrays of dimension 0 of numbers (or arrays of these), which also all theorems on values cover. Arrays of dimension 0 of other elements get a layout that init, copy, zero, destroy and compare cannot follow |
| C16 | remove_trailing_skips=false keeps trailing padding | simplify with remove_trailing_skips = false (LayoutKeep.v): the pending skips are what is dropped; with merge the pending skips are always 0 | partial. false: the trailing padding is dropped, and with merge_skip_copy the argument has no effect at all. Proved: nothing but padding is dropped, so types that do not end with padding are described in full |
| C17 | vectors behave as sequences | Vector/String methods on cells (Vector.v) against lists of logical values (VectorSpec.v) | proved. For all element types (nested containers included) and all vectors. The two refuted theorems record what lies outside of the statement: pushing an element of the vector itself into a full vector reads freed memory, and std::string's erase/delete_if never remove anything. |
| C18 | type name order is a strict total order with contiguous namespaces | typename.cc and nameSort on lists of characters (Names.v) against grammars and orders (NamesSpec.v); induction on strings, fuel proved sufficient | proved. nameSort, lower_bound and the prefix iterators; iteration visits exactly the names with the prefix |
| C19 | namespace/basename split is lossless | typename.cc and nameSort on lists of characters (Names.v) against grammars and orders (NamesSpec.v); induction on strings, fuel proved sufficient | proved. for every absolute name not ending with a top-level '/'; a trailing '/' is lost (_refuted) |
| C20 | name validation | typename.cc and nameSort on lists of characters (Names.v) against grammars and orders (NamesSpec.v); induction on strings, fuel proved sufficient | partial. exact on names without modifiers and on namespaces; with modifiers one direction is proved, the other is false (_refuted) |
| C21 | registry add/get/has consistency | both name maps of the registry with their orders (Registry.v); all histories of operations (RegistrySpec.reachable); invariant by induction over histories, termination of aliasing by a measure | partial. Proved for every history whose names have no empty path component (all names without modifiers; C21_simple_names_plain). Two claims of the English property are false and refuted: an accepted name with an empty component can hide an absolute name, and add can throw BadName after having registered the type. |
| C22 | default namespace lookup | both name maps of the registry with their orders (Registry.v); all histories of operations (RegistrySpec.reachable); invariant by induction over histories, termination of aliasing by a measure | partial. Exact just after setDefaultNamespace and in the root namespace; sound in every history without importNamespace, complete without remove. Order independence in general is false of the code (two refutations). |
| C23 | remove removes exactly the dependents | both name maps of the registry with their orders (Registry.v); all histories of operations (RegistrySpec.reachable); invariant by induction over histories, termination of aliasing by a measure | proved. Every reachable registry; dependencies-present is preserved by remove, add (dependencies first) and alias. |
| C24 | registry equality | both name maps of the registry with their orders (Registry.v); all histories of operations (RegistrySpec.reachable); invariant by induction over histories, termination of aliasing by a measure | partial. The property is false of the code for every non-empty registry: the loop increments end(). What holds is C24_answers_partial. |
| C25 | isSame is an equivalence and refines canCastTo | heap of type objects, comparison with its stack and fuel (Graph.v) against the greatest bisimulation (GraphSpec.v); exact characterisation | partial. Termination, reflexivity, soundness w.r.t. structural equality, exact characterisation and isSame => canCastTo for all (cyclic) graphs. Symmetry holds only when neither graph contains two structurally equal types; C25_symmetry_refuted exhibits the asymmetry in general. |
| C26 | enum maps are coherent | Enum, Compound, MetaData and ConfigSet as state machines (TypeObj.v); induction over histories of calls | proved. For every history of add calls (throwing ones included). getNextValue's overflow at INT_MAX is shown as undefined behaviour. |
| C27 | compound layout bookkeeping | Enum, Compound, MetaData and ConfigSet as state machines (TypeObj.v); induction over histories of calls | partial. For every history of addField calls without wrap-around of size_t. getTrailingPadding is exact when all fields end below 2^31 and refuted beyond (offsets go through int). |
| C28 | registry resize keeps compounds consistent | do_resize and the registry loop on the heap (Resize.v) against new sizes and offsets (ResizeSpec.v) | partial. Compounds, arrays and nested types of acyclic registries get the new sizes, with every field moved by exactly the growth of the fields before it; the refuted theorems are concrete registries (recursive types, cancelling changes, a compound requested directly) where the full statement is false of the code, which is what makes the result partial. |
| C29 | export order respects dependencies | the work list of Exporter::save with an arbitrary plugin (Exporter.v); simulation, induction on the number of pending types | proved. Every reachable registry and every answer of the plugin's save function (assumed not to throw). |
| C30 | XML escaping is lossless | text of the exporter, reader = specification of the XML subset of libxml2, importer (Xml.v, Tlb.v); text = printed tree, tree read back, importer rebuilds the registry | partial. Proved for texts without the characters the exporter leaves unescaped: every attribute and metadata value of the exported document is read back unchanged (libxml2 is specified by the reader in Xml.v). The unrestricted claim is false: ampersands, unescaped names of numerics, ]]> in metadata. |
| C31 | tlb export/import round trip | text of the exporter, reader = specification of the XML subset of libxml2, importer (Xml.v, Tlb.v); text = printed tree, tree read back, importer rebuilds the registry | partial. Proved for every reachable registry the format can hold (portable): the import of the exported text terminates successfully for all large enough recursion bounds, every saved name denotes the same type (name, size, category, symbols, fields, offsets, recursively) with the same metadata, and no absolute name is invented. Missing: source ids (refuted for containers and aliases), persistent pointers/arrays (refuted: the importer refuses the file), containers of size 0 (refuted), names with unescaped characters (C30 refutations), import into a registry that already has types. |
| C32 | derived type names parse back | parser of modifiers, TypeBuilder and Registry::build in a world of allocations (TypeBuilder.v, World.v) | partial. Proved for every base name (at least two characters, ending in none of ] * and space) and every list of modifiers with dimensions below 2^31, in every registry built by allocations and registry operations whose modified names mean what they say; termination of parsing for every string. Missing, because the code does not satisfy it (refuted): dimensions >= 2^31 (atoi), names of one character or ending with a space, pointers to arrays (the name validator rejects the built name). |
| C33 | in-place endian swap | visitor over cells (Visitor.v), byte swaps (Endian.v), compiled instruction lists and their interpreter (Compiled.v); reversal of each number specified by position | proved. for types without pointers (the swap throws on them, as documented) and opaques, numerics of native sizes, 4-byte enums (the only size Enum's constructor gives) |
| C34 | compiled endian swap agrees with the in-place one | visitor over cells (Visitor.v), byte swaps (Endian.v), compiled instruction lists and their interpreter (Compiled.v); reversal of each number specified by position | partial. agreement for types below 2 GiB without inner trailing padding and without arrays of dimension 0; refuted for compounds that end with padding inside of another type, for arrays of dimension 0 (an iterator that was never set is used), and when both values are the same memory |
| C35 | csv header matches csv lines | header and line visitors (Csv.v) against the leaves of a value (CsvSpec.v) | partial. Proved for all types without pointers, opaques and containers: same columns in the same order, header = access path, line = text of the bytes there; same number of separators. Refuted for opaque fields (column in the header only), containers (one element in the header, all in the line) and for characters that are the separator. Float texts are a parameter. |
| C36 | value_cast rejects type mismatches | visitors with early exit (Csv.v) against the numbers of a value (CastSpec.v) | partial. Proved: exact on numbers, throws on enums and opaques; on any value (containers included) what is returned are the bytes of a number of type T in the value, and BadValueCast is thrown if the type has none. Refuted: compounds, arrays and vectors are not rejected. |
| C37 | metadata operations | Enum, Compound, MetaData and ConfigSet as state machines (TypeObj.v); induction over histories of calls | proved. For every object reachable by any sequence of calls. C37_include_refuted is about the comment of include, not about the property. |
| C38 | ConfigSet is a multimap | Enum, Compound, MetaData and ConfigSet as state machines (TypeObj.v); induction over histories of calls | proved. For every object reachable by any sequence of calls, with libstdc++'s multimap::find (first element of the range). C38_find_unspecified_refuted: what the C++ standard says of find is not enough. |
| C39 | plugin path splitting | constructor, load and registration of plugins for every file system (Plugins.v) | proved. Every value of the variable and every file system (directory listings, loadability of libraries). Empty components count: C39_empty_component shows that a trailing colon adds one, which makes the constructor throw. |
| C40 | relative names and namespaces | typename.cc and nameSort on lists of characters (Names.v) against grammars and orders (NamesSpec.v); induction on strings, fuel proved sufficient | partial. completion proved; the minimal path leads back to the namespace from an enclosing namespace, but may be captured by a deeper one and undefined for an empty/relative ns (_refuted) |
| C41 | derived aliases | both name maps of the registry with their orders (Registry.v); all histories of operations (RegistrySpec.reachable); invariant by induction over histories, termination of aliasing by a measure | proved. For successful alias/add; the failing case (derived name rejected as invalid) leaves partial effects, shown by the refutation. |
| C42 | reference counts of wrapped memory | memory table with reference counts (Memory.v) against who refers to a block (MemorySpec.v); invariant over histories | proved. Every history of allocate/wrap/init/invalidate/finalize in which fresh allocations are not wrapped already, roots of new parts are registered, NULL is not wrapped (fewer than 10^9 calls: the counts are ints). Outside of these conditions the refuted theorems give leaks, stale zones and raising finalizers. |
| C43 | C++ name conversion | string functions (NameConv.v) along a grammar of C++ names (NameConvSpec.v) | partial. The functions on strings. The round trip is proved for names whose template arguments after the first are numbers, which are longer than one letter and are not renamed; it is refuted for the others. Conversion of printed C++ names, validity of the results and injectivity up to spaces are proved without the condition on arguments. |
| C44 | canCastTo is sound component by component | heap of type objects, comparison with its stack and fuel (Graph.v) against the greatest bisimulation (GraphSpec.v); exact characterisation | partial. Component-wise soundness proved; the field-wise claim is false of the code (comparison stack shared between strict and loose comparisons), refuted by a concrete witness. |
| C45 | clear deletes each type once | both name maps of the registry with their orders (Registry.v); all histories of operations (RegistrySpec.reachable); invariant by induction over histories, termination of aliasing by a measure | proved. Every reachable registry. |
| C46 | value_get_field finds the named field | visitors with early exit (Csv.v) against the numbers of a value (CastSpec.v) | partial. Proved for compounds (first field with the name, throws iff none), numbers, enums, opaques. Refuted for arrays of compounds: a field of the first element is returned. |
| C47 | plugin lookup | constructor, load and registration of plugins for every file system (Plugins.v) | proved. Any history of registrations, by the libraries loaded in the constructor and by later calls of add. |
| C48 | life of singletons | server, dummies and use<> objects (Singleton.v); invariant over interleavings of calls | proved. Threads are interleavings of calls, since each call holds the one mutex. For singletons that hold use<> members of another singleton the statement is false (C48_nested_refuted: the server is used after it is deleted); typelib has none. |
| C49 | configuration objects | configset.hh on trees (Config.v) | proved. Conversions other than bool and string are a parameter. |
| C50 | result of a merge | Type::merge with its stack, Registry::merge, minimal, copySourceIDs on a growing heap (Merge.v); simulation relation between both registries and the stack (MergeRel.v), partial correctness (MergeMain, MergeReg), termination (MergeTerm), totality for empty targets (MergeCopy), entries (MergeSource) | partial. Hypotheses: names n*, n[d], /std/vector<n> denote what they say, and no array contains itself through its elements (C50_arrays_refuted: otherwise the copy of the array gets size 0). |
| C51 | a merge ends and leaves old types alone | Type::merge with its stack, Registry::merge, minimal, copySourceIDs on a growing heap (Merge.v); simulation relation between both registries and the stack (MergeRel.v), partial correctness (MergeMain, MergeReg), termination (MergeTerm), totality for empty targets (MergeCopy), entries (MergeSource) | partial. Termination, old names and definitions proved for all merges, failed or not; refuted: after an exception the target can hold a pointer to a deleted compound. |
| C52 | conflicting definitions | Type::merge with its stack, Registry::merge, minimal, copySourceIDs on a growing heap (Merge.v); simulation relation between both registries and the stack (MergeRel.v), partial correctness (MergeMain, MergeReg), termination (MergeTerm), totality for empty targets (MergeCopy), entries (MergeSource) | partial. The if direction is proved; the only-if direction is refuted: the comparison is not symmetric and also rejects equal definitions that use two types for one. |
| C53 | a merge into an empty registry is a copy | Type::merge with its stack, Registry::merge, minimal, copySourceIDs on a growing heap (Merge.v); simulation relation between both registries and the stack (MergeRel.v), partial correctness (MergeMain, MergeReg), termination (MergeTerm), totality for empty targets (MergeCopy), entries (MergeSource) | proved. For registries whose types the constructors built, closed under dependencies, with meaningful derived names, complete aliases of derived types and no array within itself. |
| C54 | minimal registry of a type | Type::merge with its stack, Registry::merge, minimal, copySourceIDs on a growing heap (Merge.v); simulation relation between both registries and the stack (MergeRel.v), partial correctness (MergeMain, MergeReg), termination (MergeTerm), totality for empty targets (MergeCopy), entries (MergeSource) | proved. Same hypotheses as C53; minimal(name, with_aliases). |
| C55 | source ids after a merge | Type::merge with its stack, Registry::merge, minimal, copySourceIDs on a growing heap (Merge.v); simulation relation between both registries and the stack (MergeRel.v), partial correctness (MergeMain, MergeReg), termination (MergeTerm), totality for empty targets (MergeCopy), entries (MergeSource) | partial. Source ids are kept for types all of whose names have one; refuted in general: an alias without source id lets another id overwrite that of the type. |
| C56 | layouts of recursive types | the layout visitor on the heap of type objects (GraphLayout.v), related to the visitor on trees by the unfolding relation tree_of (GraphLayoutSpec.v); simplify proved independent of container addresses | partial. Termination is false for types that hold containers of themselves: the recursion never ends (refuted in general). For all other graphs, cyclic through pointers or not: ends, equals the layout of the tree (so all tree theorems apply), exists exactly without pointers and opaques. |
| C57 | IDL files are complete and well nested | the IDL exporter on strings (Idl.v) with the work list of C29; documents, identifiers and declarations as relations on type objects (IdlSpec.v); zipper invariant for the open modules (IdlProofs.v), induction over the saved entries (IdlMain.v) | partial. C57_document: for every registry, options and successful export by a new exporter (as the plugin manager makes) the text is that of a document with exactly these declarations. Assumes names without colons or two leading underscores, named fields and enums that are not templates. Reuse of an exporter object is refuted. Case: C57_case. |
| C58 | references in IDL files resolve | the IDL exporter on strings (Idl.v) with the work list of C29; documents, identifiers and declarations as relations on type objects (IdlSpec.v); zipper invariant for the open modules (IdlProofs.v), induction over the saved entries (IdlMain.v) | partial. C58_references: proved without threshold and selection when all that is needed is persistent; without these, refuted by three exports. Case: C57_case meets its hypotheses. |
| C59 | IDL names are unique | the IDL exporter on strings (Idl.v) with the work list of C29; documents, identifiers and declarations as relations on type objects (IdlSpec.v); zipper invariant for the open modules (IdlProofs.v), induction over the saved entries (IdlMain.v) | partial. False in general (/_Foo and /Foo, /A</int> and /A__int_). Proved for structs and enums whose names IDL accepts as they are. Case: C59_case. |
| C60 | integers assigned from Ruby | conversions of the Ruby extension on bytes (RubyConv.v), with the macros of ruby.h as partial functions on Z; ranges of the types as the specification (RubyConvSpec.v); modular arithmetic and byte encodings (RubyConvProofs.v) | partial. Accepted numbers and read values characterised exactly; the round trip holds for all representable integers except uint32 from 2^31 and uint64 from 2^63 (C60_faithful). Refuted: uint32 above 2^31 read as negative, uint64 above 2^63 refused, numbers that do not fit small types are truncated instead of refused. Floats are parameters. |
| C61 | texts assigned from Ruby | conversions of the Ruby extension on bytes (RubyConv.v), with the macros of ruby.h as partial functions on Z; ranges of the types as the specification (RubyConvSpec.v); modular arithmetic and byte encodings (RubyConvProofs.v) | partial. Char arrays of at least one byte: round trip or ArgumentError. std::string: round trip when the number of characters is the number of bytes. Refuted: multi-byte Strings are cut, assignment cuts at NUL, arrays of dimension 0 and pointers overflow. |
| C62 | elements of arrays in Ruby | conversions of the Ruby extension on bytes (RubyConv.v), with the macros of ruby.h as partial functions on Z; ranges of the types as the specification (RubyConvSpec.v); modular arithmetic and byte encodings (RubyConvProofs.v) | partial. Exact results for all indexes and counts; histories of reads with non-negative indexes. Refuted: negative indexes depend on what was read before, elements above 2^31 cannot be read, empty arrays accept all indexes. |
| C63 | enums assigned from Ruby | conversions of the Ruby extension on bytes (RubyConv.v), with the macros of ruby.h as partial functions on Z; ranges of the types as the specification (RubyConvSpec.v); modular arithmetic and byte encodings (RubyConvProofs.v) | proved. For enums whose names are unique and whose values are C ints. |
| C64 | raw_memcpy on vectors | conversions of the Ruby extension on bytes (RubyConv.v), with the macros of ruby.h as partial functions on Z; ranges of the types as the specification (RubyConvSpec.v); modular arithmetic and byte encodings (RubyConvProofs.v) | partial. For sizes from 1 to 2^32 - 1 and elements below 2^32 bytes. Refuted: negative sizes read almost 4 GB, size 0 indexes an empty vector. |
| C65 | Ruby wrappers never outlive the memory they refer to | Wrapper.v models the Ruby caches of wrappers, the accessor of containers, handle_invalidation and the memory (buffers and places); the C++ change is an arbitrary typed value in memory the allocator does not use elsewhere. WrapperInv.v: an invariant of all histories; WrapperLoop.v: the loop over containers, shorter paths first, drops exactly the wrappers whose place is gone. | partial. Proved for the operations called tame: fields asked for by String, elements of arrays and vectors, changes through handle_invalidation, clear, and changes of parts that own no buffers. The full statement is false: Symbols as field names, []= of elements with containers, zero!, delete_if, cast and characters of std::string leave wrappers of freed memory (refuted). Values on the Ruby heap, the garbage collector and MultiDimension arrays are not modelled. |
| C66 | pushing a value onto a vector | Vector::push in Wrapper.v with the address of the source and an arbitrary new buffer; case split on the position of the source. | partial. Proved unless the value is an element of the vector itself and the buffer moves; then the freed buffer is read (refuted). |
| C67 | standard C types | the statements of addStandardTypes as a list run on the registry model (StdTypes.v); keywords and the C standard table (StdTypesSpec.v); simulation of the run by a table of names, then computation on the table | proved. platform: x86-64 Linux (LP64, signed char and wchar_t). Other orders of the words, such as int long, are not names (C67_missing_order). Case: C67_case |
| C68 | standard names that are taken | the statements of addStandardTypes as a list run on the registry model (StdTypes.v); keywords and the C standard table (StdTypesSpec.v); simulation of the run by a table of names, then computation on the table | partial. proved: it throws and what was there stays. False: some standard types are added before the exception, and later calls throw because of these; with a /bool of the caller and no /int8_t a null pointer is dereferenced |
| C69 | Accessors find all the parts of a type | find_in_type, resolve and each over the type graph and the memory model (Accessor.v), any sorted permutation for sort_by; parts of a value as an inductive relation (AccessorSpec.v); paths characterised by the types they walk, then induction on the path | partial. Exact for types whose structures have no two fields of the same name. Refuted: with two such fields the first is yielded twice; find_in_type does not return for types that hold themselves through containers (exactly those). |
| C70 | Copying and comparing values of different type objects | typelib_do_copy/typelib_compare over the type graph and the memory model (CastCopy.v); canCastTo gives, for separate types, trees with the same atoms up to padding and enum symbols (CastCopyGraph.v), then the walk of the layout of the source type over the memory of the destination type (CastCopyProofs.v) | partial. Proved for source types in which no structure is used both directly and as (part of) an element; refuted without this: canCastTo accepts and the copy leaves a vector whose buffer is not a whole number of elements. compare is not symmetric. |
| C71 | C++ names in the Ruby importers | the functions on character lists and arrays of tokens (CxxRuby.v); names as trees and their spellings as a relation (CxxRubySpec.v); the tokens of a spelling (CxxRubyProofs.v), then induction on names with arbitrary nesting levels (CxxRubyConv.v, CxxRubyBack.v) | partial. The conversions are proved inverse and injective for names made of identifiers, numbers and templates with arguments, in every spelling. False of the code for pointers to and arrays of template instances, templates without arguments and parse_template of types nested in template instances. |
| C72 | Types built from Ruby | builders and extension functions on the registry model in reachable worlds (RbCreate.v); offsets and values specified position by position (RbCreateSpec.v); induction on the lists, C21 for the registration | partial. Fields, offsets, values, sizes, names and the exact conditions of success are proved for all inputs. Refuted: sizes smaller than the fields, negative sizes and offsets (they wrap around), overlapping fields, equal field names and field types of another registry are accepted; a symbol with two values makes a C++ exception leave the function; create_container with a size resizes an existing container type under the compounds that hold it. |
| C73 | C++ declarations imported through GCCXML/castxml | the recursive importer with its tables over a document graph (Gccxml.v), registry by its specification; types, data members and the types without representation as inductive relations on the document (GccxmlSpec.v); invariant with the stack of nodes in progress, induction on the fuel, measure for termination | partial. Layout, names, absence of inventions, reasons for leaving types out, and termination are proved for all documents whose import succeeds. Refuted: a structure that points to itself makes the import raise, as do pointers to arrays and classes derived from a standard type; a member that hides one of a base gets the wrong place in classes derived further; bit-fields overlap; a virtual or private base that is empty does not keep a class out. Templates, containers and opaques are not modelled. |
| C74 | Importing C++ declarations with clang | registerType and addMembersOfClassToCompound as mutual recursion on fuel over declarations (Clang.v), registry by its specification; names, members at their places and the types without representation as inductive relations (ClangSpec.v); invariant over registries, induction on the fuel, rank for termination | partial. Proved for all programs, registries and orders: declared classes are excluded for a stated reason or become compounds with exactly their members (places exact when every base is at the start), typedefs, enums (int range), numerics, containers, nothing invented, base kept, termination for acyclic containment. Refuted, because the code violates the claim: second base at offset 0, arrays of types with the same representation throw, nested arrays through typedefs throw, order dependence, struct with a vector of itself never ends, protected members and private bases of bases are exposed, enum values are truncated to int. |
| C75 | Fields that Ruby sees as objects of its own | values with memory and instance variables, Ruby objects on a heap (Conv.v); a machine whose fields are stored or are an object (ConvSpec.v); functional abstraction, simulation over all histories (ConvProofs.v) | partial. Proved for all histories of accessors, copies to other values, comparisons and marshalling (up to the first exception if there are copies), for lossless conversions that reading changes nothing, and that dup is an independent value with the same contents. Refuted, because the code violates the claim: index access is stale, index and raw assignments and loaded data are lost after a read, copies onto self and failed copies drop changes, dup detaches the original from its objects, arrays ignore changes of their elements, rounding conversions change data on read. Not modelled: converted fields that are compounds with converted fields themselves, nil assigned to a field. |
| C76 | Types of an exported registry as Ruby methods | the module, type classes, delegates and namespaces as objects with prefix and cache, the frozen regexp as state (RbExport.v); a machine without caches in which everything returned stands for a name (RbExportSpec.v); invariant over the caches, simulation (RbExportProofs.v) | partial. Proved for all histories of method lookups (and constants with an exact match) on registries without aliases that only grow, for filters that keep types or give Ruby classes. Refuted, because the code violates the claim: aliases and filters change the prefix of the shared type class, namespaces with aliases only are not found, the module's own name finds the last namespace, removed types stay in caches, constants leak into methods and prefer similar types to exact namespaces, the regexp with flag o works for the first namespace only and finds types of other namespaces. Not modelled: method names the objects already have. |
| C77 | recursive_dependencies in Ruby | the table of instance variables filled by a nested recursion on fuel (RecDeps.v); dependency as an inductive relation, induction on the fuel with the stack of sets being filled (Properties_RecDeps.v) | partial. Proved for all graphs and call sequences: results are sound and stable, calls end, results are complete for types from which no recursive type is reached, and for the first call in any case. Refuted, because the code violates the claim: with mutually recursive types a later call returns an incomplete set, depending on the order of calls. |
| C78 | Values as simple Ruby objects | to_simple_value on the memory model of the value operations, to_byte_array is the modelled dump (Simple.v); numbers in memory incl. IEEE floats, String#unpack, Base64 and the relation shows (SimpleSpec.v); induction over the type for two equal values at once, injectivity (SimpleProofs.v) | partial. Proved for all types and values whose enums have symbols and whose unsigned 32 bit numbers are below 2^31 unless packed: the result shows the value, packed arrays decode to their elements, equal results mean equal values (NaN payloads apart), unpacked JSON has no special floats. Refuted, because the code violates the claim: unsigned 32 bit numbers from 2^31 on are shown negative (packing shows them right), packed arrays keep NaN and infinities, enums without symbol are all shown as the empty text, numbers of other sizes are packed without code. Not modelled: /bool (shown as true and false unless packed), converted fields (C75). |
| C79 | Customizations of types | Model: the four hashes of RubyMappingCustomization, the four module functions and the subclass_initialize methods as functions on a world; histories of calls and type creations. Proof: invariant that each slot holds what was registered for the key since its last set. | partial. False in the code: find raises NameError instead of ArgumentError (undefined name in the message); convert_to_ruby with a Hash as second argument drops its :if; arrays and containers replace a registered conversion from Array by their own; a conversion of a numeric type is used by to_ruby but the type says that it needs none (so containers do not convert their elements). The rest is proved for all histories. |
| C80 | Containers built from a size and an element | Model: of_size over the models of dump and load (C01); Proof: the buffer is the dump of the wanted container (image is a function), then the round trip C01; otherwise it is a proper prefix of the dump of another container, then C04. | partial. False in the code: to_byte_array leaves out the padding at the end of the element but the elements inside a container are marshalled with it, so of_size raises for every element type that ends with padding and every n > 0 (proved for all such types without containers inside). Proved for elements that are marshalled whole, and for strings. |
| C81 | Metadata from Ruby | Model: the five calls over the C++ MetaData model (C37). Spec: abstract map from keys to sets. Proof: simulation by induction over the history. | partial. False in the code: set and []= clear the key before the values are checked, so with an Array or any other non-String they raise and the old values are lost; clear and delete with two or more keys silently do nothing; keys and texts are cut at the first NUL byte. Proved for all histories without such calls. |
| C82 | Typed values from plain Ruby data | Model: from_ruby with set_hash, set_array, concat over the models of copy (C09), push (C17), strings and char arrays (C61), enums (C63). Spec: acceptable, holds by recursion over the type. Proof: induction over the type with loop invariants; round trip by induction with the relation shows (C78). | partial. C82_exact: accepted exactly if an independent predicate says so, and the result is valid and holds what was given, with integers modulo the size of the type. False in the code: integers out of range are cut silently, unsigned numbers from 2^63 on are refused, vectors of enums cannot be built from symbols, packed arrays are refused, texts in multi byte encodings are cut. Round trip proved without these. |
| C83 | A Ruby call never takes the process down | Model: RubyCalls.v, each method with its try blocks over the models of the library operations; a C++ exception that leaves a method is an abort. Proof: the dump and load theorems redone for layouts with pointers (RubyCallsProofs.v), layout_of throws exactly on unsupported types, induction on the recursion of alias. | partial. False in the code: to_byte_array, from_buffer, zero! and copy abort the process exactly for types with a pointer inside, although Type.new accepts them; PointerType.create_null always aborts; alias to the name of another type aborts (exact iff); endian_swap! aborts on pointers; marshalling_size is negative from 2 GiB on. Pointers are marshalled as addresses with accept_pointers, where the documentation says ignored. Proved for all the other values, and with accept_pointers for all values; from_buffer without vectors in containers (C05). |
| C84 | Options given from Ruby reach the importers and exporters | Model: RubyOptions.v, format_options and setup_configset_from_option_array over Config.v, with a heap of configuration objects. Proof: every entry is a sequence of calls of C49; induction on the options, the heap only grows. | partial. Proved for all trees of scalars, lists of scalars and lists of Hashes of such options, at any depth, with keys that differ as texts and without NUL. False in the code for the rest: an option whose value is a non-empty Hash makes the extension read a String as an Array (undefined behaviour), whatever the options before it; empty lists and Hashes are lost; keys equal as texts override or append according to the order; mixed lists raise or turn Hashes into texts; texts are cut at NUL. |
| C85 | Frozen values are read only | Model: Freeze.v, a tree of objects (frozen flag and cache of the parts) over a tree of values; calls are made on any object by its path. Proof: invariant on flags (induction on objects and paths), induction on the sequence of calls. | partial. Proved: frozen objects refuse their own methods without any effect, freeze reaches all existing objects of parts at any depth, no call undoes it, and any sequence of calls on frozen objects leaves the value alone. False in the code: the object of a part that is asked for after the freeze is not frozen and changes the frozen value; Typelib.copy, from_buffer, zero! and raw_memcpy write to frozen values; the assignment of a typed value to an element of a frozen array is not refused. Fields with converted values (C75) are not modelled here. |
| C86 | to_h describes types | Model: Describe.v over the type graphs of Graph.v, hashes as lists of entries. Proof: induction on fuel for content, on the finiteness of the type for the comparison of descriptions. | partial. Proved: the description has the documented content and nothing else, full descriptions are equal (Ruby ==) iff the definitions are the same up to the targets of pointers, descriptions never raise, end without the option recursive, and with it exactly if no type contains itself. False in the code: a structure that holds a vector of itself recurses for ever; pointers to different structures of the same name have the same description; two fields of the same name get the same offset. Metadata are not part of to_h. |
| C87 | Numbers in IDL files | Model: Idl.v. Specification: the table idl_numbers of IdlSpec.v. Proof: cases over the table. | partial. Proved for unsigned integers of 1, 2, 4, 8 bytes, signed ones of 2, 4, 8 and floats of 4 and 8, against a table of the basic types of IDL. False in the code: int8_t (char) becomes the unsigned octet, a long double of 16 bytes becomes double, an integer of another size gives a field without type and no error. Case: C87_case. |
<!-- /table -->

## 3. Trusted base

* Coq 8.16.1's kernel, including the VM of `vm_compute` (used in concrete cases and refutations only). No `native_compute`,
  no plugins, no axioms of ours, no functors, no module types, no sections' hypotheses that outlive their section.
* `Print Assumptions` says `Closed under the global context` for every theorem named in `MANIFEST.json`
  (`tools/assumptions.sh` prints them all). The seven `Coq.ssr.ssrunder.Under_rel.*` names that a scan of the loaded
  libraries lists are the sealed signature of a standard-library module that is loaded, not used.
* Libraries: the Coq standard library only.
* The reading of the C++ code: every definition of the model cites the file and lines it models and says what it
  simplifies. What the proofs say about the program is as good as this reading.

### Modelled

* `typelib/memory_layout.{hh,cc}`, `value_ops.cc`, `lang/csupport/containers.cc` (vectors and strings): the operations on
  values, the byte code and its interpreters, element access.
* `typelib/typename.cc`, `registry.cc` (names, namespaces, aliases, removal, iteration, equality, resize, merge, minimal,
  source ids, metadata of merges excepted), `typemodel.{hh,cc}` (comparison, casts, resize, merge, Enum, Compound, MetaData),
  `typebuilder.cc`, `exporter.cc` (order of an export), `endianness.*`, `endian_swap.hh`, `value.{hh,cc}`, `value_cast.hh`,
  `csvoutput.cc`, `pluginmanager.*`, `utilmm/configset.*`, `utilmm/singleton/*`.
* `lang/csupport/standard_types.cc` (sizes of the C types as on x86-64 Linux);
  `lang/tlb/export.cc`, `import.cc`; `lang/idl/export.cc` (getIDLRelative excepted); `bindings/ruby/ext/memory.cc`, `convert.cc` (conversions of
  numbers, enums and strings), the container functions of `specialized_types.cc`; `bindings/ruby/lib/typelib/*_type.rb` (wrappers and their
  caches), `accessor.rb`, `path.rb`; `typelib_do_copy` and `typelib_compare` of `ext/value.cc`; `NamingConversions.cpp`, `IgnoredOrRenamedTypes.cpp` (renames);
  `registry_export.rb` (C76), `type.rb` recursive_dependencies (C77), to_simple_value (C78), `specializations.rb` and subclass_initialize (C79), of_size (C80), `metadata.rb` with `ext/metadata.cc` (C81), Typelib.from_ruby and the conversions of `*_type.rb` (C82), the try blocks of `ext/value.cc`, `memory_init`, `registry_alias` (C83), format_options with setup_configset_from_option_array (C84), freeze (C85), to_h (C86);
  the builders of `registry.rb` and the create functions of `ext/registry.cc`; `cxx.rb` (template_tokenizer, collect_template_arguments, parse_template) the name functions of `gccxml.rb` and its importer (classes, typedefs, enums, arrays, pointers, qualified types; C73).

### Modelled by a specification

* libxml2: `Xml.v` defines which texts are documents and their trees, for the subset of XML the exporter writes.
* `std::map`, `std::set`, `std::multimap`: sorted lists; `std::multimap::find` as in libstdc++ (C38).
* Memory: lists of cells (bytes or live container objects) for values, a partial map from ids to objects for types.
  `malloc` and `new` never fail.
* Texts of floating point numbers, and conversions of configuration values other than bool and string: parameters.
* File systems and dynamic loading: arbitrary functions (C39). Plugins: arbitrary functions (C29).
* Threads: interleavings of calls (C48), as each call holds the mutex. The garbage collector of Ruby: finalizers run at any
  point between calls (C42).
* The memory behind Ruby wrappers (C65, C66): numbered buffers and positions in them; the allocator picks any buffer that is not
  in use.
* Sizes: `size_t` has 64 bits; `sizeof(std::vector) = 24`, `sizeof(std::string) = 32`, pointers have 8 bytes.

### Not modelled

* Nested compounds with converted fields (C75), the build system, `typedisplay.cc`, metadata and opaques in the clang importer, templates, containers and opaques in the gccxml importer,
  in the Ruby library pretty printing, `numeric_type.rb`,
  floats (parameters of the model), Boost's lexical casts and tokenizer beyond what the modelled calls need.
* Reading of files, streams that fail (a stream given to dump/load may refuse to write or end early, which is modelled).

## 4. Testing the theorems

`seeded/LOG.jsonl`: one line per edited definition (`tools/mutate.py` applies the edit in a scratch copy, rebuilds, reports
which theorems fail). Edits that survived and made a claim false led to stronger theorems (field `tightened`); the other
survivors are equivalent programs or change behaviour outside of all listed properties, as the `claim` field says.
