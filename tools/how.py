import json
how={}
def h(ids,t):
    for i in ids.split(): how[i]=t
h('C01 C02 C03 C04 C05 C06 C07','flat interpreters of the layout bytecode (ValueOps.v) on lists of memory cells; specification `valid`, `same`, image of a value by recursion on types (ValueSpec.v); per-byte expansion of bytecode into atoms, Hoare-style rule for the walk, induction on atoms')
h('C08 C09 C10 C11 C12','as C01; containers are live objects in cells, leaks and double frees are UB outcomes of the model')
h('C13 C14 C15 C16','MemLayout::Visitor, merge and simplify on flat words (Layout.v) against what a layout must say byte by byte (LayoutSpec.v); induction on types')
h('C17','Vector/String methods on cells (Vector.v) against lists of logical values (VectorSpec.v)')
h('C18 C19 C20 C40','typename.cc and nameSort on lists of characters (Names.v) against grammars and orders (NamesSpec.v); induction on strings, fuel proved sufficient')
h('C21 C22 C23 C24 C41 C45','both name maps of the registry with their orders (Registry.v); all histories of operations (RegistrySpec.reachable); invariant by induction over histories, termination of aliasing by a measure')
h('C25 C44','heap of type objects, comparison with its stack and fuel (Graph.v) against the greatest bisimulation (GraphSpec.v); exact characterisation')
h('C26 C27 C37 C38','Enum, Compound, MetaData and ConfigSet as state machines (TypeObj.v); induction over histories of calls')
h('C28','do_resize and the registry loop on the heap (Resize.v) against new sizes and offsets (ResizeSpec.v)')
h('C29','the work list of Exporter::save with an arbitrary plugin (Exporter.v); simulation, induction on the number of pending types')
h('C30 C31','text of the exporter, reader = specification of the XML subset of libxml2, importer (Xml.v, Tlb.v); text = printed tree, tree read back, importer rebuilds the registry')
h('C32','parser of modifiers, TypeBuilder and Registry::build in a world of allocations (TypeBuilder.v, World.v)')
h('C33 C34','visitor over cells (Visitor.v), byte swaps (Endian.v), compiled instruction lists and their interpreter (Compiled.v); reversal of each number specified by position')
h('C35','header and line visitors (Csv.v) against the leaves of a value (CsvSpec.v)')
h('C36 C46','visitors with early exit (Csv.v) against the numbers of a value (CastSpec.v)')
h('C39 C47','constructor, load and registration of plugins for every file system (Plugins.v)')
h('C42','memory table with reference counts (Memory.v) against who refers to a block (MemorySpec.v); invariant over histories')
h('C43','string functions (NameConv.v) along a grammar of C++ names (NameConvSpec.v)')
h('C48','server, dummies and use<> objects (Singleton.v); invariant over interleavings of calls')
h('C49','configset.hh on trees (Config.v)')
h('C50 C51 C52 C53 C54 C55','Type::merge with its stack, Registry::merge, minimal, copySourceIDs on a growing heap (Merge.v); simulation relation between both registries and the stack (MergeRel.v), partial correctness (MergeMain, MergeReg), termination (MergeTerm), totality for empty targets (MergeCopy), entries (MergeSource)')
h('C56','the layout visitor on the heap of type objects (GraphLayout.v), related to the visitor on trees by the unfolding relation tree_of (GraphLayoutSpec.v); simplify proved independent of container addresses')
h('C57 C58 C59','the IDL exporter on strings (Idl.v) with the work list of C29; documents, identifiers and declarations as relations on type objects (IdlSpec.v); zipper invariant for the open modules (IdlProofs.v), induction over the saved entries (IdlMain.v)')
h('C60 C61 C62 C63 C64','conversions of the Ruby extension on bytes (RubyConv.v), with the macros of ruby.h as partial functions on Z; ranges of the types as the specification (RubyConvSpec.v); modular arithmetic and byte encodings (RubyConvProofs.v)')
h('C65','Wrapper.v models the Ruby caches of wrappers, the accessor of containers, handle_invalidation and the memory (buffers and places); the C++ change is an arbitrary typed value in memory the allocator does not use elsewhere. WrapperInv.v: an invariant of all histories; WrapperLoop.v: the loop over containers, shorter paths first, drops exactly the wrappers whose place is gone.')
h('C66','Vector::push in Wrapper.v with the address of the source and an arbitrary new buffer; case split on the position of the source.')
h('C05','for bytes of any shape: memory-free predicates stream/overflows on byte lists (StreamSpec.v), the walk over arbitrary input by induction on the nesting depth of containers (StreamSafe.v)')
h('C16','simplify with remove_trailing_skips = false (LayoutKeep.v): the pending skips are what is dropped; with merge the pending skips are always 0')
h('C67 C68','the statements of addStandardTypes as a list run on the registry model (StdTypes.v); keywords and the C standard table (StdTypesSpec.v); simulation of the run by a table of names, then computation on the table')
h('C70','typelib_do_copy/typelib_compare over the type graph and the memory model (CastCopy.v); canCastTo gives, for separate types, trees with the same atoms up to padding and enum symbols (CastCopyGraph.v), then the walk of the layout of the source type over the memory of the destination type (CastCopyProofs.v)')
h('C69','find_in_type, resolve and each over the type graph and the memory model (Accessor.v), any sorted permutation for sort_by; parts of a value as an inductive relation (AccessorSpec.v); paths characterised by the types they walk, then induction on the path')
h('C71','the functions on character lists and arrays of tokens (CxxRuby.v); names as trees and their spellings as a relation (CxxRubySpec.v); the tokens of a spelling (CxxRubyProofs.v), then induction on names with arbitrary nesting levels (CxxRubyConv.v, CxxRubyBack.v)')
h('C72','builders and extension functions on the registry model in reachable worlds (RbCreate.v); offsets and values specified position by position (RbCreateSpec.v); induction on the lists, C21 for the registration')
h('C73','the recursive importer with its tables over a document graph (Gccxml.v), registry by its specification; types, data members and the types without representation as inductive relations on the document (GccxmlSpec.v); invariant with the stack of nodes in progress, induction on the fuel, measure for termination')
h('C74','registerType and addMembersOfClassToCompound as mutual recursion on fuel over declarations (Clang.v), registry by its specification; names, members at their places and the types without representation as inductive relations (ClangSpec.v); invariant over registries, induction on the fuel, rank for termination')
h('C75','values with memory and instance variables, Ruby objects on a heap (Conv.v); a machine whose fields are stored or are an object (ConvSpec.v); functional abstraction, simulation over all histories (ConvProofs.v)')
h('C76','the module, type classes, delegates and namespaces as objects with prefix and cache, the frozen regexp as state (RbExport.v); a machine without caches in which everything returned stands for a name (RbExportSpec.v); invariant over the caches, simulation (RbExportProofs.v)')
h('C77','the table of instance variables filled by a nested recursion on fuel (RecDeps.v); dependency as an inductive relation, induction on the fuel with the stack of sets being filled (Properties_RecDeps.v)')
h('C78','to_simple_value on the memory model of the value operations, to_byte_array is the modelled dump (Simple.v); numbers in memory incl. IEEE floats, String#unpack, Base64 and the relation shows (SimpleSpec.v); induction over the type for two equal values at once, injectivity (SimpleProofs.v)')
h('C79','Model: the four hashes of RubyMappingCustomization, the four module functions and the subclass_initialize methods as functions on a world; histories of calls and type creations. Proof: invariant that each slot holds what was registered for the key since its last set.')
h('C80','Model: of_size over the models of dump and load (C01); Proof: the buffer is the dump of the wanted container (image is a function), then the round trip C01; otherwise it is a proper prefix of the dump of another container, then C04.')
h('C81','Model: the five calls over the C++ MetaData model (C37). Spec: abstract map from keys to sets. Proof: simulation by induction over the history.')
h('C82','Model: from_ruby with set_hash, set_array, concat over the models of copy (C09), push (C17), strings and char arrays (C61), enums (C63). Spec: acceptable, holds by recursion over the type. Proof: induction over the type with loop invariants; round trip by induction with the relation shows (C78).')
h('C83','Model: RubyCalls.v, each method with its try blocks over the models of the library operations; a C++ exception that leaves a method is an abort. Proof: the dump and load theorems redone for layouts with pointers (RubyCallsProofs.v), layout_of throws exactly on unsupported types, induction on the recursion of alias.')
h('C84','Model: RubyOptions.v, format_options and setup_configset_from_option_array over Config.v, with a heap of configuration objects. Proof: every entry is a sequence of calls of C49; induction on the options, the heap only grows.')
h('C85','Model: Freeze.v, a tree of objects (frozen flag and cache of the parts) over a tree of values; calls are made on any object by its path. Proof: invariant on flags (induction on objects and paths), induction on the sequence of calls.')
h('C86','Model: Describe.v over the type graphs of Graph.v, hashes as lists of entries. Proof: induction on fuel for content, on the finiteness of the type for the comparison of descriptions.')
h('C87','Model: Idl.v. Specification: the table idl_numbers of IdlSpec.v. Proof: cases over the table.')
json.dump(how,open(__file__.replace('how.py','how.json'),'w'),indent=0)
