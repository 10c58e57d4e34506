{"id": "C01", "title": "dump/load round trip", "statement": "For every type made of numerics, enums, arrays, compounds, vectors and strings and every valid value of it, Typelib::dump succeeds, and Typelib::load of exactly these bytes into a freshly initialised value succeeds and yields a value logically equal to the dumped one (same numbers, enums, element counts, elements, characters; padding is irrelevant).", "quantifier": "every well-formed type tree (any nesting depth and width), every value, every destination whose containers are empty", "why_tests_cant": "types and values are unbounded trees; nesting of containers in arrays in compounds cannot be enumerated", "anchors": ["typelib/value_ops.cc:ValueOps::dump", "typelib/value_ops.cc:ValueOps::load", "lang/csupport/containers.cc:Vector::dump", "lang/csupport/containers.cc:Vector::load", "lang/csupport/containers.cc:String::dump", "lang/csupport/containers.cc:String::load"]}
{"id": "C02", "title": "getDumpSize is exact", "statement": "Typelib::getDumpSize returns exactly the number of bytes Typelib::dump appends for the same value.", "quantifier": "every type, every value", "why_tests_cant": "the equality has to hold for every value tree", "anchors": ["typelib/value_ops.cc:getDumpSize", "typelib/value_ops.cc:ByteCounterStream", "typelib/value_ops.cc:VectorOutputStream"]}
{"id": "C03", "title": "bounded dump never overruns", "statement": "dump(value, buffer, buffer_size) never writes a byte outside [buffer, buffer+buffer_size); it returns the number of bytes written when the value fits and 0 when it does not, and in the first case the buffer starts with exactly the bytes the unbounded dump produces.", "quantifier": "every type, value and buffer size", "why_tests_cant": "every relation between the size of the value and of the buffer has to be covered", "anchors": ["typelib/value_ops.cc:ByteArrayOutputStream", "typelib/value_ops.cc:dump(uint8_t const*, uint8_t*, unsigned int, MemoryLayout const&)"]}
{"id": "C04", "title": "truncated input is rejected", "statement": "load from a strict prefix of the bytes dumped for a value never returns normally: it throws, and it does not read outside the input buffer.", "quantifier": "every type, every value, every truncation point", "why_tests_cant": "every cut point of every stream", "anchors": ["typelib/value_ops.cc:VectorInputStream::read", "typelib/value_ops.cc:load"]}
{"id": "C05", "title": "load is memory safe on arbitrary bytes", "statement": "load from an arbitrary byte sequence into a valid value either throws or returns a valid value; it has no undefined behaviour.", "quantifier": "every type, every input byte string, every valid destination", "why_tests_cant": "the input space is all byte strings, including adversarial element counts", "anchors": ["typelib/value_ops.cc:ValueOps::load", "lang/csupport/containers.cc:Vector::load", "lang/csupport/containers.cc:Vector::resize"]}
{"id": "C06", "title": "load overwrites previous container contents", "statement": "Loading a stream dumped from value A into an initialised value B makes B logically equal to A, whatever B contained before.", "quantifier": "every type, every pair of valid values", "why_tests_cant": "depends on the previous contents of every container of the destination", "anchors": ["typelib/value_ops.cc:ValueOps::load (FLAG_CONTAINER, element_count == 0)"]}
{"id": "C07", "title": "load rejects unused input", "statement": "load(value, buffer) succeeds only if the buffer is consumed entirely, up to the declared trailing padding of the type: a buffer with extra bytes other than exactly the trailing padding is rejected; and a raw memory image of a container-free type (sizeof bytes) is accepted.", "quantifier": "every type, value, and number of extra bytes", "why_tests_cant": "all types and all lengths", "anchors": ["typelib/value_ops.cc:load(uint8_t*, Type const&, std::vector<uint8_t> const&, MemoryLayout const&)", "typelib/typemodel.cc:Compound::getTrailingPadding"]}
{"id": "C08", "title": "compare is logical equality", "statement": "Typelib::compare(a, b, type) returns true exactly when the two values are logically equal, independently of padding bytes, capacities and trailing padding inside vectors; in particular it is an equivalence relation on valid values.", "quantifier": "every type, every pair of valid values", "why_tests_cant": "quantifies over pairs of unbounded values", "anchors": ["typelib/value_ops.cc:ValueOps::compare", "lang/csupport/containers.cc:Vector::compare", "lang/csupport/containers.cc:String::compare"]}
{"id": "C09", "title": "copy duplicates the value", "statement": "Typelib::copy(dst, src) makes dst logically equal to src (deep copy of containers), leaves src unchanged and dst valid, without leaking the containers dst held, whatever dst contained.", "quantifier": "every type, every pair of valid values", "why_tests_cant": "unbounded nesting and every combination of old and new container lengths", "anchors": ["typelib/value_ops.cc:ValueOps::copy", "lang/csupport/containers.cc:Vector::copy", "lang/csupport/containers.cc:Vector::resize"]}
{"id": "C10", "title": "zero clears the value", "statement": "Typelib::zero sets every non-container byte covered by the type's layout to 0 and empties every container, without leaking; the value stays valid.", "quantifier": "every type, every valid value", "why_tests_cant": "unbounded types", "anchors": ["typelib/value_ops.cc:ValueOps::zero", "lang/csupport/containers.cc:Vector::clear", "lang/csupport/containers.cc:String::clear"]}
{"id": "C11", "title": "init produces a valid value", "statement": "Typelib::init on raw memory of the type's size constructs every container (empty) exactly at its place, sets every enum that has symbols to a declared value and leaves every other byte unchanged; the result is a valid value.", "quantifier": "every type, every initial memory contents", "why_tests_cant": "unbounded types, all memory contents", "anchors": ["typelib/value_ops.cc:ValueOps::init", "typelib/memory_layout.cc:simplifyInit", "typelib/memory_layout.cc:Visitor::visit_(Enum const&)"]}
{"id": "C12", "title": "destroy releases everything once", "statement": "Typelib::destroy on a valid value destroys every container reachable in it exactly once (nested elements included): afterwards no live container remains and none was dropped without destruction; init followed by destroy is balanced.", "quantifier": "every type, every valid value", "why_tests_cant": "unbounded nesting of containers", "anchors": ["typelib/value_ops.cc:ValueOps::destroy", "lang/csupport/containers.cc:Vector::destroy", "lang/csupport/containers.cc:Vector::resize"]}
{"id": "C13", "title": "layout_of fails exactly on unsupported types", "statement": "layout_of(type) with default flags throws NoLayout exactly when the type contains a pointer or an opaque type; otherwise it succeeds. With accept_pointers the presence of pointers is no reason to fail.", "quantifier": "every type, every flag combination", "why_tests_cant": "all type trees", "anchors": ["typelib/memory_layout.cc:Visitor", "typelib/memory_layout.hh:layout_of"]}
{"id": "C14", "title": "layout describes the type byte for byte", "statement": "For every well-formed type the bytecode returned by layout_of is well formed (validate() accepts it) and, expanded, classifies every byte of the type in order: data bytes are copied, containers are at their offsets, padding is skipped (or copied when merging), and only trailing padding is missing.", "quantifier": "every well-formed type, both values of merge_skip_copy", "why_tests_cant": "the optimiser merges arbitrary sequences of operations", "anchors": ["typelib/memory_layout.cc:simplify", "typelib/memory_layout.cc:Visitor", "typelib/memory_layout.cc:validate"]}
{"id": "C15", "title": "layout_of handles empty arrays and empty elements", "statement": "layout_of succeeds and describes the type for arrays whose elements are empty or whose dimension is 0.", "quantifier": "every type including zero-sized ones", "why_tests_cant": "corner cases depend on what precedes the array", "anchors": ["typelib/memory_layout.cc:simplify (added_ops == 0)", "typelib/memory_layout.cc:simplifyInit (added_ops == 0)"]}
{"id": "C16", "title": "remove_trailing_skips=false keeps trailing padding", "statement": "layout_of(type, .., merge, remove_trailing_skips=false) describes all getSize() bytes of the type, trailing padding included.", "quantifier": "every type", "why_tests_cant": "all types", "anchors": ["typelib/memory_layout.cc:simplify", "typelib/memory_layout.hh:layout_of"]}
{"id": "C17", "title": "vectors behave as sequences", "statement": "On a valid vector value, push of a value stored outside of this vector appends a logically equal copy of it at the end and leaves the previous elements logically unchanged (or throws length_error when the vector cannot grow, and runtime_error when the value has another type); resize keeps the common prefix; erase(index) removes one element and keeps the order of the others; erase(value) removes the first logically equal element or nothing; delete_if offers every element once, in order, to the predicate and removes exactly the elements it accepts; setElement changes one element only and getElement returns it.", "quantifier": "every element type, every vector contents, every history of operations", "why_tests_cant": "all sequences of operations with all reallocation patterns", "anchors": ["lang/csupport/containers.cc:Vector::push", "lang/csupport/containers.cc:Vector::erase", "lang/csupport/containers.cc:Vector::delete_if_impl", "lang/csupport/containers.cc:Vector::resize"]}
{"id": "C18", "title": "type name order is a strict total order with contiguous namespaces", "statement": "nameSort is a strict total order on type names, and all names below a namespace are contiguous in it, so that iterating a registry over a namespace prefix visits exactly the names below this prefix.", "quantifier": "every pair/triple of names, every set of registered names", "why_tests_cant": "order laws quantify over all strings", "anchors": ["typelib/typename.hh:nameSort", "typelib/typename.cc:nameSort", "typelib/registry.cc:begin(prefix)", "typelib/registry.cc:end(prefix)"]}
{"id": "C19", "title": "namespace/basename split is lossless", "statement": "For an absolute type name, getNamespace(name) + getTypename(name) is the name; template arguments are never split; getTypename contains no top-level separator.", "quantifier": "every absolute type name", "why_tests_cant": "all strings including nested template argument lists", "anchors": ["typelib/typename.cc:splitTypename", "typelib/typename.cc:getNamespace", "typelib/typename.cc:getTypename"]}
{"id": "C20", "title": "name validation", "statement": "isValidTypename/isValidNamespace accept exactly the documented grammar: identifiers separated by '/', optional template arguments, optional array or pointer suffixes.", "quantifier": "every string", "why_tests_cant": "all strings", "anchors": ["typelib/typename.cc:isValidTypename", "typelib/typename.cc:isValidNamespace", "typelib/typename.cc:isValidIdentifier"]}
{"id": "C21", "title": "registry add/get/has consistency", "statement": "After registry.add(type) the type is found under its absolute name; every other absolute name resolves as before; adding another type under a taken name throws and changes nothing; the set of names is the set of added names and aliases.", "quantifier": "every history of add/alias/remove operations", "why_tests_cant": "all histories", "anchors": ["typelib/registry.cc:add", "typelib/registry.cc:get", "typelib/registry.cc:has", "typelib/registry.cc:alias"]}
{"id": "C22", "title": "default namespace lookup", "statement": "Looking up a non-absolute name finds the type visible from the default namespace, and the result depends only on the registered names and the namespace, not on the order in which types were added and the namespace was set.", "quantifier": "every set of names, every namespace, every order of operations", "why_tests_cant": "order-dependence shows only on particular interleavings", "anchors": ["typelib/registry.cc:setDefaultNamespace", "typelib/registry.cc:add", "typelib/registry.cc:updateCurrentNameMap", "typelib/registry.cc:importNamespace"]}
{"id": "C23", "title": "remove removes exactly the dependents", "statement": "registry.remove(type) removes the type and exactly the types that depend (directly or not) on it, with all their names, and leaves a registry in which every remaining type's dependencies are still present.", "quantifier": "every registry, every removed type", "why_tests_cant": "all dependency graphs", "anchors": ["typelib/registry.cc:remove", "typelib/registry.cc:reverseDepends"]}
{"id": "C24", "title": "registry equality", "statement": "Registry::isSame returns true exactly when both registries define the same names with the same types; it terminates without undefined behaviour.", "quantifier": "every pair of registries", "why_tests_cant": "all pairs", "anchors": ["typelib/registry.cc:isSame"]}
{"id": "C25", "title": "isSame is an equivalence and refines canCastTo", "statement": "Type::isSame is reflexive and symmetric, and a.isSame(b) implies a.canCastTo(b).", "quantifier": "every pair of type graphs, recursive ones included", "why_tests_cant": "all pairs of possibly cyclic type graphs", "anchors": ["typelib/typemodel.cc:Type::isSame", "typelib/typemodel.cc:Type::canCastTo", "typelib/typemodel.cc:rec_compare", "typelib/typemodel.cc:do_compare"]}
{"id": "C26", "title": "enum maps are coherent", "statement": "Enum::add/get: a symbol added with a value is found with this value; re-adding a symbol with another value throws and changes nothing; get(value) returns a symbol that has this value whenever there is one and throws otherwise.", "quantifier": "every history of add calls", "why_tests_cant": "all histories", "anchors": ["typelib/typemodel.cc:Enum::add", "typelib/typemodel.cc:Enum::get"]}
{"id": "C27", "title": "compound layout bookkeeping", "statement": "Compound::addField keeps the size at least the end of every field; field lookup by name returns the first field added under this name; getTrailingPadding is the distance from the last used byte to the end of the type.", "quantifier": "every history of addField calls", "why_tests_cant": "all histories", "anchors": ["typelib/typemodel.cc:Compound::addField", "typelib/typemodel.cc:Compound::getField", "typelib/typemodel.cc:Compound::getTrailingPadding"]}
{"id": "C28", "title": "registry resize keeps compounds consistent", "statement": "Registry::resize: after resizing types, every compound's fields are shifted by the growth of the preceding fields and array/compound sizes are updated, so fields do not overlap.", "quantifier": "every registry, every set of new sizes", "why_tests_cant": "all dependency graphs", "anchors": ["typelib/registry.cc:resize", "typelib/typemodel.cc:Compound::do_resize", "typelib/typemodel.cc:Array::do_resize"]}
{"id": "C29", "title": "export order respects dependencies", "statement": "Exporter::save of a registry writes every persistent entry exactly once and every type after all the types it depends on; it terminates, and fails with ExportError exactly when dependencies are cyclic or missing.", "quantifier": "every registry", "why_tests_cant": "all dependency graphs and iteration orders", "anchors": ["typelib/exporter.cc:Exporter::save"]}
{"id": "C30", "title": "XML escaping is lossless", "statement": "Type names, field names and metadata written by the tlb exporter are read back unchanged by an XML parser.", "quantifier": "every string", "why_tests_cant": "all strings", "anchors": ["lang/tlb/export.cc:xmlEscape", "lang/tlb/xmltools.cc"]}
{"id": "C31", "title": "tlb export/import round trip", "statement": "A registry exported to tlb and imported into an empty registry defines the same names with the same types.", "quantifier": "every exportable registry", "why_tests_cant": "all registries", "anchors": ["lang/tlb/export.cc:TlbExportVisitor", "lang/tlb/import.cc:TlbImport::load"]}
{"id": "C32", "title": "derived type names parse back", "statement": "The name of an array or pointer type parses back into the element type's name and the modifiers, so TypeBuilder::build finds or rebuilds the same type.", "quantifier": "every element name, dimension and sequence of modifiers", "why_tests_cant": "all names and dimensions", "anchors": ["typelib/typebuilder.cc:TypeBuilder::parseTypename", "typelib/typemodel.cc:Array::getArrayName", "typelib/typemodel.cc:Pointer::getPointerName"]}
{"id": "C33", "title": "in-place endian swap", "statement": "swap_endian (visitor) reverses the bytes of every numeric and enum field in place, leaves padding untouched and is an involution.", "quantifier": "every type supported, every value", "why_tests_cant": "all types and values", "anchors": ["typelib/endian_swap.hh:EndianSwapVisitor", "typelib/endian_swap.hh:swap_helper"]}
{"id": "C34", "title": "compiled endian swap agrees with the in-place one", "statement": "The compiled swap (CompileEndianSwapVisitor) produces for every value the same bytes as the in-place swap.", "quantifier": "every type, every value", "why_tests_cant": "all types and values", "anchors": ["typelib/endianness.cc:CompileEndianSwapVisitor", "typelib/endianness.hh"]}
{"id": "C35", "title": "csv header matches csv lines", "statement": "csv_header and csv_line of the same type/value have the same number of columns in the same order.", "quantifier": "every type, every value", "why_tests_cant": "all types and values", "anchors": ["typelib/csvoutput.cc:csv_header", "typelib/csvoutput.cc:csv_line"]}
{"id": "C36", "title": "value_cast rejects type mismatches", "statement": "value_cast<T>(v) returns the value when the type of v is the numeric type T and throws BadValueCast otherwise.", "quantifier": "every type, every value", "why_tests_cant": "all types", "anchors": ["typelib/value_cast.hh", "typelib/value.cc:ValueVisitor"]}
{"id": "C37", "title": "metadata operations", "statement": "MetaData set/add/get/clear/merge behave as a map from keys to sets of values; merge is idempotent, and the result contains both operands.", "quantifier": "every history of operations", "why_tests_cant": "all histories", "anchors": ["typelib/typemodel.cc:MetaData"]}
{"id": "C38", "title": "ConfigSet is a multimap", "statement": "ConfigSet set/insert/get: set replaces all values of a key, insert adds one, lookups of other keys are unaffected.", "quantifier": "every history", "why_tests_cant": "all histories", "anchors": ["typelib/utilmm/configset.cc"]}
{"id": "C39", "title": "plugin path splitting", "statement": "The directories searched for plugins are exactly the colon-separated components of TYPELIB_PLUGIN_PATH, in order, when the variable is set, and otherwise the default directory if it exists; in each of them exactly the files named *.so or *.dylib are loaded.", "quantifier": "every value of the variable, every file system content", "why_tests_cant": "all strings", "anchors": ["typelib/pluginmanager.cc"]}
{"id": "C40", "title": "relative names and namespaces", "statement": "isInNamespace/getRelativeName/getMinimalPathTo: the relative name of a type in a namespace completes back to its absolute name, and resolving the minimal path from the namespace gives the type's namespace back.", "quantifier": "every name and namespace", "why_tests_cant": "all names", "anchors": ["typelib/typename.cc:isInNamespace", "typelib/typename.cc:getRelativeName", "typelib/typename.cc:getMinimalPathTo"]}
{"id": "C41", "title": "derived aliases", "statement": "After registry.alias(base, new) the derived names (arrays, pointers, containers of base spelled with the new name) resolve to the types derived from base.", "quantifier": "every registry", "why_tests_cant": "all registries and alias sequences", "anchors": ["typelib/registry.cc:alias", "typelib/typemodel.cc:Indirect::modifiedDependencyAliases"]}
{"id": "C42", "title": "reference counts of wrapped memory", "statement": "The bindings' memory table frees a block exactly when its last reference is dropped and never frees a referenced block.", "quantifier": "every history of ref/unref operations", "why_tests_cant": "all histories", "anchors": ["bindings/ruby/ext/memory.cc"]}
{"id": "C43", "title": "C++ name conversion", "statement": "Converting a Typelib name to C++ and back gives the name.", "quantifier": "every name", "why_tests_cant": "all names", "anchors": ["tools/typelib-clang-tlb-importer/NamingConversions.cpp"]}
{"id": "C44", "title": "canCastTo is sound component by component", "statement": "a.canCastTo(b) only accepts types whose components correspond one to one with compatible attributes, and a compound that can be cast to another has each of its field types castable to the corresponding field type.", "quantifier": "every pair of type graphs, recursive ones included", "why_tests_cant": "all pairs of type graphs", "anchors": ["typelib/typemodel.cc:Type::canCastTo", "typelib/typemodel.cc:Type::rec_compare", "typelib/typemodel.cc:Container::do_compare"]}
{"id": "C45", "title": "clear deletes each type once", "statement": "Registry::clear (and the destructor) deletes every type of the registry exactly once, however many names it has, and leaves no name; no type is deleted twice or leaked.", "quantifier": "every registry any history of operations builds", "why_tests_cant": "depends on which names of a type survive every possible history of aliases and removals", "anchors": ["typelib/registry.cc:clear", "typelib/registryiterator.hh:isAlias"]}
{"id": "C46", "title": "value_get_field finds the named field", "statement": "value_get_field(v, name) on a compound value returns the first field that bears the name, with its address in the value and its type; it throws FieldNotFound exactly when the compound has no such field, and always on values that are not compounds.", "quantifier": "every compound type, every name, every value", "why_tests_cant": "all types and names; the getter is a visitor of the whole value", "anchors": ["typelib/value.hh:FieldGetter", "typelib/value.hh:value_get_field"]}
{"id": "C47", "title": "plugin lookup", "statement": "PluginManager::importer(name) and exporter(name) use the plugin registered first under that name, throw PluginNotFound exactly when there is none, add says whether it took the plugin, and the destructor deletes every plugin that was taken exactly once.", "quantifier": "every history of registrations, every name", "why_tests_cant": "all histories of loads and registrations", "anchors": ["typelib/pluginmanager.cc:add_plugin", "typelib/pluginmanager.cc:get_plugin", "typelib/pluginmanager.cc:PluginManager::~PluginManager"]}
{"id": "C48", "title": "life of singletons", "statement": "A singleton that holds no use<> object itself, such as the plugin manager, exists exactly while there is a use<> object for it: it is created with the first, kept as the same object while there are some, destroyed with the last, and all users see the same instance.", "quantifier": "every history of constructions, copies, dereferences and destructions of use<> objects, in every interleaving of threads, with constructors that may fail", "why_tests_cant": "all histories and schedules", "anchors": ["typelib/utilmm/singleton/server.cc", "typelib/utilmm/singleton/dummy.cc", "typelib/utilmm/singleton/use.hh"]}
{"id": "C49", "title": "configuration objects", "statement": "A config_set behaves as a map from names to lists of values: set replaces, insert appends, erase removes, get returns the values in the order they were given (converted, or the default when there are none).", "quantifier": "every history of calls, every name and value", "why_tests_cant": "all histories", "anchors": ["typelib/utilmm/configset.cc", "typelib/utilmm/configset.hh:config_set::get"]}
{"id": "C50", "title": "result of a merge", "statement": "After a successful B.merge(A), every name of A denotes in B a type with the same definition; the names of B denote the same types as before; nothing else is added (except names derived from aliases); B holds all the types its types are made of and none that belongs to A, so that A can be deleted.", "quantifier": "every pair of registries without common type objects, with recursive types, aliases, containers, partly overlapping names", "why_tests_cant": "all pairs of type graphs", "anchors": ["typelib/registry.cc:Registry::merge", "typelib/typemodel.cc:Type::merge", "typelib/typemodel.cc:Compound::do_merge", "typelib/typemodel.cc:Container::do_merge"]}
{"id": "C51", "title": "a merge ends and leaves old types alone", "statement": "B.merge(A) ends for all registries, also with recursive types; when it throws, the names and definitions of B are what they were, the types of A are unchanged, and B holds no deleted type.", "quantifier": "every pair of registries, whatever conflicts there are", "why_tests_cant": "all type graphs, all points of failure", "anchors": ["typelib/registry.cc:Registry::merge", "typelib/typemodel.cc:Type::try_merge"]}
{"id": "C52", "title": "conflicting definitions", "statement": "B.merge(A) throws if and only if some name has different definitions in A and B.", "quantifier": "every pair of registries", "why_tests_cant": "all pairs of type graphs", "anchors": ["typelib/typemodel.cc:Type::try_merge", "typelib/registry.cc:Registry::merge"]}
{"id": "C53", "title": "a merge into an empty registry is a copy", "statement": "Merging a registry into an empty one succeeds and gives a copy: the same names, aliases of the same types, the same definitions.", "quantifier": "every registry", "why_tests_cant": "all type graphs", "anchors": ["typelib/registry.cc:Registry::merge"]}
{"id": "C54", "title": "minimal registry of a type", "statement": "minimal(name) gives a registry with that type and exactly the types it depends on, directly or not, with all their names or only their own names as asked, and the same definitions; it throws if there is no such type.", "quantifier": "every registry, every name", "why_tests_cant": "all type graphs", "anchors": ["typelib/registry.cc:Registry::minimal"]}
{"id": "C55", "title": "source ids after a merge", "statement": "After B.merge(A), B's types keep their source ids, those without get the ones of A, and no source id is given to a type that neither A nor B gave to one of its names.", "quantifier": "every pair of registries, every name", "why_tests_cant": "all pairs of registries with all distributions of source ids and aliases", "anchors": ["typelib/registry.cc:Registry::copySourceIDs", "typelib/registry.cc:Registry::setSourceID"]}
{"id": "C56", "title": "layouts of recursive types", "statement": "layout_of(type) ends for every type, also for types that refer to themselves through pointers or containers, and depends only on the structure of the type: two types with the same fields, elements and sizes get the same layout. A type made of well-formed compounds, arrays, containers, numbers and enums has a layout; one that holds a pointer or an opaque type makes it throw NoLayout.", "quantifier": "every graph of type objects, every combination of flags", "why_tests_cant": "the graphs are unbounded and may be cyclic; termination is about all of them", "anchors": ["typelib/memory_layout.cc:MemLayout::Visitor", "typelib/memory_layout.hh:layout_of", "typelib/typevisitor.cc:TypeVisitor::dispatch"]}
{"id": "C57", "title": "IDL files are complete and well nested", "statement": "A successful export of a registry to IDL writes a document whose modules are properly nested, none of them empty, closed at the end of the file, whatever the namespaces of the types and the prefix and suffix. It contains exactly one declaration for each exported type that IDL does not know, in the modules of its namespace, in an order where what a type needs comes first, with one line per field; then one typedef per alias that can have one. Using the same exporter twice gives the same file.", "quantifier": "every registry, prefix, suffix, threshold, selection and option", "why_tests_cant": "the modules opened and closed depend on the sequence of namespaces, of any length and depth, that the export order gives", "anchors": ["lang/idl/export.cc:IDLExport::save", "lang/idl/export.cc:IDLExport::adaptNamespace", "lang/idl/export.cc:IDLExport::closeNamespaces", "lang/idl/export.cc:IDLExportVisitor", "typelib/exporter.cc:Exporter::save"]}
{"id": "C58", "title": "references in IDL files resolve", "statement": "In an exported IDL file every type used by a field, an element or a typedef is a builtin of IDL or is written with the full name of a declaration that comes earlier in the same file.", "quantifier": "every registry, prefix, suffix and option, every field and alias", "why_tests_cant": "all graphs of types in all namespaces; the declaration and the reference are computed by different code", "anchors": ["lang/idl/export.cc:getIDLAbsolute", "lang/idl/export.cc:IDLTypeIdentifierVisitor", "lang/idl/export.cc:IDLExportVisitor"]}
{"id": "C59", "title": "IDL names are unique", "statement": "Two different types never get the same IDL name.", "quantifier": "every pair of types", "why_tests_cant": "all pairs of names", "anchors": ["lang/idl/export.cc:normalizeIDLName", "lang/idl/export.cc:stripLeadingUnderscore", "lang/idl/export.cc:IDLTypeIdentifierVisitor"]}
{"id": "C60", "title": "integers assigned from Ruby", "statement": "Assigning an integer from Ruby to a number of a typelib value and reading it back gives the same integer; an integer that the type cannot represent is refused with RangeError, and anything else with TypeError. Reading a field and assigning the result to another of the same type copies it exactly.", "quantifier": "every supported integer type, every integer, every memory content", "why_tests_cant": "all integers for all widths; wrap around is silent", "anchors": ["bindings/ruby/ext/convert.cc:RubySetter", "bindings/ruby/ext/convert.cc:RubyGetter", "bindings/ruby/ext/convert.cc:typelib_from_ruby", "bindings/ruby/ext/convert.cc:typelib_to_ruby"]}
{"id": "C61", "title": "texts assigned from Ruby", "statement": "Storing a Ruby String in a char array, a char pointer or a std::string and reading it back gives the same bytes, or an exception is raised and nothing outside the buffer is touched.", "quantifier": "every String, every size of the array, every previous content", "why_tests_cant": "all lengths around the size of the buffer, NULs and multi-byte characters at all positions", "anchors": ["bindings/ruby/ext/strings.cc:value_from_string", "bindings/ruby/ext/strings.cc:value_to_string", "bindings/ruby/ext/convert.cc:RubySetter", "bindings/ruby/lib/typelib/standard_convertions.rb"]}
{"id": "C62", "title": "elements of arrays in Ruby", "statement": "array[i] refers to element i of the array if there is one and raises IndexError otherwise, whatever was read before; array.do_get(i, n) refers to the n elements from i, all inside the array, or raises IndexError.", "quantifier": "every dimension, element size, index, count and history of reads", "why_tests_cant": "indices are unbounded integers converted between signed and unsigned types; the result may depend on the cache, hence on the history", "anchors": ["bindings/ruby/ext/specialized_types.cc:array_get", "bindings/ruby/ext/specialized_types.cc:array_element", "bindings/ruby/lib/typelib/array_type.rb:raw_get"]}
{"id": "C63", "title": "enums assigned from Ruby", "statement": "Assigning a symbol, its name as a String, or an integer to an enum stores the value exactly if the enum has it, and the field reads back as a symbol with this value; everything else is refused with an exception. A field with a value that has no symbol reads as nil.", "quantifier": "every enum, symbol, string, integer and memory content", "why_tests_cant": "all enums, including those with several symbols for a value, and all values", "anchors": ["bindings/ruby/ext/specialized_types.cc:enum_value", "bindings/ruby/ext/typelib.hh:enum_symbol", "bindings/ruby/ext/convert.cc:RubySetter"]}
{"id": "C64", "title": "raw_memcpy on vectors", "statement": "vector.raw_memcpy(address, size) makes the vector contain exactly the size bytes at the address, as a whole number of elements; a size that is not a multiple of the element size raises ArgumentError, elements that are not plain memory raise TypeError, and no other memory is read or written.", "quantifier": "every vector, previous content, element type, size and source", "why_tests_cant": "all sizes, including those that wrap around in 32 bits", "anchors": ["bindings/ruby/ext/specialized_types.cc:vector_raw_memcpy"]}
{"id": "C65", "title": "Ruby wrappers never outlive the memory they refer to", "statement": "A Ruby object obtained for a field or an element of a Typelib value either refers to this field or element, at its current address, or has been invalidated so that any use raises TypeError; operations that make containers reallocate or shrink invalidate exactly the wrappers whose memory is gone. No operation through a wrapper touches memory that was released, a wrapper never changes what it refers to, and asking twice gives the same wrapper.", "quantifier": "every type built from structs, arrays and vectors, every value, every history of accesses, assignments, pushes, erases and clears, and every choice of the allocator", "why_tests_cant": "all nestings of containers, all sets of wrappers that may be cached at the time of a change, all allocator decisions", "anchors": ["bindings/ruby/lib/typelib/type.rb:handle_invalidation", "bindings/ruby/lib/typelib/container_type.rb:handle_container_invalidation", "bindings/ruby/lib/typelib/accessor.rb:Accessor", "bindings/ruby/lib/typelib/path.rb:resolve", "bindings/ruby/lib/typelib/compound_type.rb:raw_get"]}
{"id": "C66", "title": "pushing a value onto a vector", "statement": "Pushing a value of the element type appends a copy of it to the vector and leaves the rest as it was, wherever the value is stored, including in the vector itself.", "quantifier": "every vector, value, place of the value and choice of the allocator", "why_tests_cant": "whether the buffer moves depends on the capacity and the allocator", "anchors": ["lang/csupport/containers.cc:Vector::push"]}
{"id": "C67", "title": "standard C types", "statement": "CXX::addStandardTypes on a registry that uses none of the standard names succeeds, changes no other name, and afterwards: every name made of the words signed, unsigned, short, long, int, char that it introduced denotes the integer type (size and sign) the C standard gives to these words; every usual spelling ([signed|unsigned] [short|long|long long] [int], the sign also second, and the three char types) is a name; /int8_t.../uint64_t, /wchar_t, /float, /double, /bool have their sizes and categories; /void is /nil; /std/string is a string of /char. Calling it again changes nothing.", "quantifier": "all registries and stores a program can build in which the names are free, all lists of keywords", "why_tests_cant": "about a hundred names, any order of keywords and any previous contents of the registry", "anchors": ["lang/csupport/standard_types.cc: addStandardTypes", "typelib/registry.cc: add, alias"]}
{"id": "C68", "title": "standard names that are taken", "statement": "CXX::addStandardTypes on a registry in which some standard name is already used either throws and leaves the registry as it was, or adds what is missing; it never accesses a null type.", "quantifier": "all registries a program can build", "why_tests_cant": "any of the standard names may be taken by any type", "anchors": ["lang/csupport/standard_types.cc: addStandardTypes"]}
{"id": "C69", "title": "Accessors find all the parts of a type", "statement": "Accessor.find_in_type(type) { |t| ... } returns for every type, and each(value) of the accessor yields, for every value of the type, exactly the parts of the value (fields, array elements and container elements at any depth, the value itself included) whose type the block accepts, each of them once, no part before a less deep one.", "quantifier": "all type graphs, all blocks, all values, all orders sort_by may choose for paths of the same size", "why_tests_cant": "types nest without bound and containers have any number of elements; sort_by is not stable", "anchors": ["bindings/ruby/lib/typelib/accessor.rb: find_in_type, traverse_and_find_in_type, each", "bindings/ruby/lib/typelib/path.rb: resolve, call, iterate"]}
{"id": "C70", "title": "Copying and comparing values of different type objects", "statement": "Typelib.copy(to, from) and Typelib.compare(to, from) accept two values whose types are different objects exactly when the type of the source can be cast to the type of the destination, and raise ArgumentError otherwise without touching the memory. When they are accepted, after the copy the destination is a valid value of its own type, equal to what the memory of the source stands for when seen as a value of the destination type, whatever the paddings and the sizes of the two structures, and no memory outside of the destination changed; compare answers true exactly when the two values are equal in this sense.", "quantifier": "all pairs of type objects of any (possibly cyclic) type graph, all values of the two types, all memory after them", "why_tests_cant": "the type pairs differ by padding, sizes, enumeration symbols and nesting in unboundedly many ways, and an error shows as a corrupted neighbouring object", "anchors": ["bindings/ruby/ext/value.cc: typelib_do_copy, typelib_compare", "typelib/typemodel.cc: Type::canCastTo, Compound::do_compare", "typelib/value_ops.cc: copy, compare"]}
{"id": "C71", "title": "C++ names in the Ruby importers", "statement": "For every C++ type name, however it is spaced and whether or not its parts start with ::, GCCXMLLoader.cxx_to_typelib gives the Typelib name with the same components and template arguments in the same order, different names give different results, and typelib_to_cxx turns the result back into the C++ name. CXX.parse_template gives the name of the template and the names of its arguments, and split_first_namespace and split_last_namespace cut the name at the first and at the last namespace separator outside of template brackets.", "quantifier": "every qualified name: any number of components, any nesting of template arguments, any spelling", "why_tests_cant": "nesting and spelling are unbounded, and a wrong split shows only as a type that is silently ignored or confused with another", "anchors": ["bindings/ruby/lib/typelib/cxx.rb: template_tokenizer, collect_template_arguments, parse_template", "bindings/ruby/lib/typelib/gccxml.rb: cxx_to_typelib, tokenized_cxx_to_typelib, typelib_to_cxx, split_first_namespace, split_last_namespace"]}
{"id": "C72", "title": "Types built from Ruby", "statement": "Registry#create_compound, create_enum, create_numeric, create_opaque and create_container register exactly one new type under the given name, with the fields (symbols) given by the caller in order; a field without offset starts where the previous one ends, a symbol without value is the previous one plus one; without a size the compound ends where its last field ends, and without offsets the fields tile it. All fields are within the compound, do not overlap, have distinct names and types of the same registry. When a call cannot be honoured it raises a Ruby exception, and neither the registry nor existing types change.", "quantifier": "every reachable registry, every list of fields and symbols with or without offsets and values, all integer sizes", "why_tests_cant": "lists of any length and every combination of given and omitted offsets, on every history of a registry", "anchors": ["bindings/ruby/lib/typelib/registry.rb: CompoundBuilder#build, EnumBuilder#build, create_numeric, create_container", "bindings/ruby/ext/registry.cc: registry_create_compound, registry_create_enum, registry_create_opaque, registry_do_create_numeric, registry_define_container", "typelib/typemodel.cc: Compound::addField, Enum::add"]}
{"id": "C73", "title": "C++ declarations imported through GCCXML/castxml", "statement": "After the import of a document, every class, typedef and enum asked for is registered: a class as a compound of its size whose fields are exactly its data members (those of its public bases included, at the places of the bases) with the types they were declared with, a typedef as a name of the type it stands for, an enum with its values. Only types that have no representation (incomplete, private, with virtual methods, empty, or built on such types) are left out; nothing else enters the registry, what was there stays, and the import ends.", "quantifier": "all documents, all sets of types asked for, all orders of declaration and mutual references, all initial registries", "why_tests_cant": "the importer recurses through an arbitrary graph of declarations with tables that are filled on the way; tests import a few headers", "anchors": ["bindings/ruby/lib/typelib/gccxml.rb: resolve_type_definition, resolve_type_id, resolve_qualified_type, ignore, load"]}
{"id": "C74", "title": "Importing C++ declarations with clang", "statement": "Importing the declarations of a C++ file with the clang-based importer puts every class that has a representation (named, complete, without virtual functions, with data members, none of them private, anonymous, at a bit position, or of a type without a representation) in the registry as a compound of the same size, whose fields are exactly its data members and those of its bases, at the places where the compiler puts them and with the types declared, all of them registered; every typedef becomes a name of the type it stands for; every named, non-private enum becomes an enum with the same values; built-in types become numeric types of their size and containers the container of what their elements stand for. Nothing else is added, what was in the registry before stays, classes that have no representation are left out without failing, the import ends, and its result does not depend on the order of the declarations.", "quantifier": "all C++ programs (finite or infinite sets of types closed under mention, satisfying the one-definition rule), all sequences of declarations, all start registries, all recursion depths", "why_tests_cant": "The result depends on the graph of types, typedefs and bases, on which names are already registered and on the order in which declarations are met; tests cover a few headers.", "anchors": ["tools/typelib-clang-tlb-importer/TypelibBuilder.cpp: TypelibBuilder::registerType, addRecord, addMembersOfClassToCompound, addArray, addEnum, registerBuiltIn, registerTypedefNameDecl, checkRegisterContainer", "tools/typelib-clang-tlb-importer/main.cpp"]}
{"id": "C75", "title": "Fields that Ruby sees as objects of its own", "statement": "A field of a compound with a custom conversion to Ruby (such as a time seen as a Ruby Time) is, for the program, the Ruby object: reading the field twice gives the same object, modifying that object or assigning another one is seen by everything that reads, marshals, compares or copies the value, and by nothing else. Copying a value replaces all fields of the target. Merely reading a field never changes what the value is marshalled as. dup gives an independent value with the same contents. Access by accessor (v.field), by index (v['field']), raw access, loading from a buffer and zeroing all act on the same field, and a value inside an array is marshalled like the value itself.", "quantifier": "all sequences of operations on any number of values and shared Ruby objects, all conversions, all sets of converted fields", "why_tests_cant": "The state is split between memory and instance variables that are synchronised at some operations only; whether they agree depends on the history of reads, writes, aliasing and failures.", "anchors": ["bindings/ruby/lib/typelib/compound_type.rb: CustomConvertionsHandling#apply_changes_from_converted_types, invalidate_changes_from_converted_types, dup, custom_convertion_module, get, set, raw_set", "bindings/ruby/lib/typelib.rb: Typelib.copy, Typelib.compare", "bindings/ruby/lib/typelib/type.rb: to_byte_array, from_buffer, dup"]}
{"id": "C76", "title": "Types of an exported registry as Ruby methods", "statement": "After registry.export_to_ruby(Types), Types.a.b.Name (with arguments for templates) is the type /a/b/Name of the registry at that moment (or the Ruby class it is converted to), the namespace /a/b/Name/ if there is no such type but there are types in it, and an error otherwise: independently of what was looked up before and in which order, of aliases, and of what was registered or removed in between. Constants (Types::Name) also find types with the name in snake_case or CamelCase, in the same namespace only, prefer exact matches, and do not influence methods.", "quantifier": "all sequences of lookups on the module and on everything lookups returned, interleaved with changes of the registry; all filters and conversions", "why_tests_cant": "Every object has a cache, type classes are shared between lookups and changed by them, and a regular expression is built once per process; what a lookup finds depends on the history.", "anchors": ["bindings/ruby/lib/typelib/registry_export.rb: resolve_call_from_exported_registry, find_type, find_namespace, setup_export_type, reset_registry_export, method_missing, const_missing", "bindings/ruby/lib/typelib/registry.rb: export_to_ruby"]}
{"id": "C77", "title": "recursive_dependencies in Ruby", "statement": "Type.recursive_dependencies returns the set of all types that are needed, directly or not, to define the type, and no other, including for recursive types (a structure with a vector of itself); the result does not depend on which types were asked before nor on the order of the dependencies, it is the same at every call, and the call ends.", "quantifier": "all graphs of types, cyclic or not, all orders of the dependencies, all sequences of calls", "why_tests_cant": "Results are kept in the type classes while they are being computed, so that with cycles what is kept depends on the order of the traversal and of earlier calls.", "anchors": ["bindings/ruby/lib/typelib/type.rb: Type.recursive_dependencies, Type.direct_dependencies"]}
{"id": "C78", "title": "Values as simple Ruby objects", "statement": "For every value without pointers and opaques, to_simple_value returns only numbers, texts, arrays and hashes that show the value: numbers as numbers, enums as their symbols, strings as strings, arrays and containers as arrays of their elements in order, compounds as hashes of their fields. With pack_simple_arrays, arrays and containers of numbers become a hash with size, pack_code and data, and unpacking the data with the code gives the same elements. special_float_values (and to_json_value) replace NaN and infinities. Equal values are shown equally and different values differently.", "quantifier": "all types without pointers and opaques (any nesting), all values, all options, both byte orders for the pack codes", "why_tests_cant": "types and values are unbounded; tests check a few numeric types and small arrays", "anchors": ["bindings/ruby/lib/typelib/type.rb:to_simple_value", "bindings/ruby/lib/typelib/type.rb:to_json_value", "bindings/ruby/lib/typelib/numeric_type.rb:pack_code", "bindings/ruby/lib/typelib/numeric_type.rb:to_simple_value", "bindings/ruby/lib/typelib/array_type.rb:to_simple_value", "bindings/ruby/lib/typelib/container_type.rb:to_simple_value", "bindings/ruby/lib/typelib/compound_type.rb:to_simple_value", "bindings/ruby/lib/typelib/enum_type.rb:to_simple_value"]}
{"id": "C79", "title": "Customizations of types", "statement": "Whatever was registered before a type is created with specialize, specialize_model, convert_to_ruby and convert_from_ruby, the type gets exactly the customizations whose key is for it (its name, a regexp that matches its name, name<> for containers, name[] for arrays) and whose :if condition accepts it, in a fixed order; to_ruby uses the first conversion, from_ruby the last one for the class of the object; later registrations do not change a type. set replaces what a key had, add adds to it, find raises ArgumentError when more than one object matches.", "quantifier": "all sequences of registrations and type creations, all keys, conditions and types", "why_tests_cant": "histories of registrations are unbounded; tests register one or two customizations", "anchors": ["bindings/ruby/lib/typelib/specializations.rb:RubyMappingCustomization", "bindings/ruby/lib/typelib/specializations.rb:convert_to_ruby", "bindings/ruby/lib/typelib/specializations.rb:convert_from_ruby", "bindings/ruby/lib/typelib/type.rb:subclass_initialize", "bindings/ruby/lib/typelib/array_type.rb:subclass_initialize", "bindings/ruby/lib/typelib/container_type.rb:subclass_initialize", "bindings/ruby/lib/typelib/compound_type.rb:subclass_initialize", "bindings/ruby/lib/typelib/numeric_type.rb:subclass_initialize"]}
{"id": "C80", "title": "Containers built from a size and an element", "statement": "For every container type and every element value, of_size(n, element) returns a container of n elements that are all equal to the given one; a size that is negative or too large is refused.", "quantifier": "all well-formed element types without pointers and opaques, all values, all sizes", "why_tests_cant": "types, values and sizes are unbounded; tests build one small vector of doubles", "anchors": ["bindings/ruby/lib/typelib/container_type.rb:of_size", "bindings/ruby/ext/value.cc:value_do_byte_array", "bindings/ruby/ext/value.cc:value_do_from_buffer"]}
{"id": "C81", "title": "Metadata from Ruby", "statement": "A MetaData object shows, after any sequence of add, set, []=, clear and delete calls, exactly the keys and texts that the calls say; a call that raises changes nothing; each visits every key once with its texts.", "quantifier": "all sequences of calls, all keys and values, also values that are not Strings", "why_tests_cant": "histories of calls and texts are unbounded; the tests make a few calls with good arguments", "anchors": ["bindings/ruby/ext/metadata.cc:metadata_add", "bindings/ruby/ext/metadata.cc:metadata_clear", "bindings/ruby/lib/typelib/metadata.rb:MetaData"]}
{"id": "C82", "title": "Typed values from plain Ruby data", "statement": "Typelib.from_ruby on Integers, Floats, Strings, Symbols, Arrays and Hashes either raises an exception, or returns a value of the type that holds exactly what the object says (numbers, symbols, elements in order, fields by name or position, the rest as in a new value); what to_simple_value returns is accepted and gives an equal value.", "quantifier": "all types without pointers and opaques, of any depth, and all finite Ruby objects", "why_tests_cant": "types and objects are nested without bound; the tests convert a few literals", "anchors": ["bindings/ruby/lib/typelib.rb:from_ruby", "bindings/ruby/lib/typelib/compound_type.rb:set_hash", "bindings/ruby/lib/typelib/container_type.rb:concat", "bindings/ruby/lib/typelib/array_type.rb", "bindings/ruby/lib/typelib/standard_convertions.rb"]}
{"id": "C83", "title": "A Ruby call never takes the process down", "statement": "A method called on a typed value or on a registry from Ruby (new, to_byte_array, from_buffer, zero!, copy, compare, marshalling_size, endian_swap!, memory_layout, alias, remove_alias) returns or raises a Ruby exception, for every type and every value that Ruby can create and every string; it does not abort the interpreter. What to_byte_array gives, with or without accept_pointers, from_buffer reads back.", "quantifier": "all types and all values that Type.new can create, all byte strings, all registries and names", "why_tests_cant": "whether an exception escapes depends on the structure of the type at any depth and on the bytes; a test that hits it kills the test process", "anchors": ["bindings/ruby/ext/value.cc:value_do_byte_array", "bindings/ruby/ext/value.cc:value_do_from_buffer", "bindings/ruby/ext/value.cc:value_zero", "bindings/ruby/ext/value.cc:typelib_do_copy", "bindings/ruby/ext/value.cc:value_marshalling_size", "bindings/ruby/ext/memory.cc:memory_init", "bindings/ruby/ext/registry.cc:registry_alias", "bindings/ruby/lib/typelib/pointer_type.rb:create_null"]}
{"id": "C84", "title": "Options given from Ruby reach the importers and exporters", "statement": "For every option Hash given to Registry#import or Registry#export, the configuration object the plugin receives says what the Hash says: for every name the given values in their order (true and false as booleans), and for every nested set of options a child with exactly its contents, at any depth; a name that was given exists.", "quantifier": "all option Hashes: any keys, any values, lists of any length, any nesting", "why_tests_cant": "the options are a tree translated twice (Hash to arrays, arrays to a multimap); a test tries a few shapes, the cases that crash or lose values are others", "anchors": ["bindings/ruby/lib/typelib/registry.rb:format_options", "bindings/ruby/lib/typelib/registry.rb:export", "bindings/ruby/ext/registry.cc:setup_configset_from_option_array", "bindings/ruby/ext/registry.cc:registry_import", "bindings/ruby/ext/registry.cc:registry_export"]}
{"id": "C85", "title": "Frozen values are read only", "statement": "After freeze was called on a typed Ruby value, no call on this object or on an object for one of its parts, obtained before or after, changes the value; methods that would change it raise TypeError, and nothing undoes a freeze.", "quantifier": "all values of any depth, all sets of existing objects for parts, all sequences of calls", "why_tests_cant": "which objects are reached by a freeze depends on the parts that were accessed before, and a change may come through any of the methods on any part in any order", "anchors": ["bindings/ruby/lib/typelib/type.rb:freeze", "bindings/ruby/lib/typelib/compound_type.rb:Freezer", "bindings/ruby/lib/typelib/array_type.rb:Freezer", "bindings/ruby/lib/typelib/array_type.rb:raw_set", "bindings/ruby/lib/typelib/container_type.rb:Freezer", "bindings/ruby/lib/typelib.rb:copy"]}
{"id": "C86", "title": "to_h describes types", "statement": "Type.to_h describes any type with hashes, arrays, numbers and strings: name, class, size, category of numbers, values of enums, length and element of arrays, element of containers, names, types and offsets of fields, in full with the option recursive. Two types have the same full description iff they have the same definition.", "quantifier": "all types of any depth in any registry, all values of the options recursive and layout_info", "why_tests_cant": "the description is built by recursion over type graphs of any shape, cyclic ones included, and the claim that equal descriptions mean equal definitions is about all pairs of types", "anchors": ["bindings/ruby/lib/typelib/type.rb:to_h", "bindings/ruby/lib/typelib/type.rb:to_h_minimal", "bindings/ruby/lib/typelib/numeric_type.rb:to_h", "bindings/ruby/lib/typelib/enum_type.rb:to_h", "bindings/ruby/lib/typelib/array_type.rb:to_h", "bindings/ruby/lib/typelib/container_type.rb:to_h", "bindings/ruby/lib/typelib/compound_type.rb:to_h", "bindings/ruby/lib/typelib/compound_type.rb:offset_of", "bindings/ruby/ext/value.cc:class_of"]}
{"id": "C87", "title": "Numbers in IDL files", "statement": "In an exported IDL file every field of a numeric type, or array of a numeric type, is declared with the basic IDL type that has the same category (signed, unsigned, floating point) and size in bytes; bool, and nothing else, becomes boolean; two numeric types get the same IDL type only if they have the same category and size; numeric types that IDL does not have are refused.", "quantifier": "all numeric types (name, category, size), all fields and arrays of them, all export options", "why_tests_cant": "names are built from category and size, and the claim is about all combinations of them", "anchors": ["lang/idl/export.cc:IDLTypeIdentifierVisitor::visit_(Numeric)", "lang/idl/export.cc:getIDLBase", "lang/idl/export.cc:getIDLAbsolute"]}
