#!/usr/bin/env python3
# Regenerates properties.jsonl.  One tuple per property.
import json
P=[]
def p(title, statement, quantifier, why, anchors):
    P.append(dict(id="C%02d"%(len(P)+1), title=title, statement=statement, quantifier=quantifier, why_tests_cant=why, anchors=anchors))
VO="typelib/value_ops.cc"; ML="typelib/memory_layout.cc"; CO="lang/csupport/containers.cc"; TM="typelib/typemodel.cc"; RG="typelib/registry.cc"; TN="typelib/typename.cc"
p("dump/load round trip",
  "For every type made of numerics, enums, arrays, compounds, vectors and strings and every valid value of it, Typelib::dump succeeds, and Typelib::load of exactly these bytes into a freshly initialised value succeeds and yields a value logically equal to the dumped one (same numbers, enums, element counts, elements, characters; padding is irrelevant).",
  "every well-formed type tree (any nesting depth and width), every value, every destination whose containers are empty",
  "types and values are unbounded trees; nesting of containers in arrays in compounds cannot be enumerated",
  [VO+":ValueOps::dump", VO+":ValueOps::load", CO+":Vector::dump", CO+":Vector::load", CO+":String::dump", CO+":String::load"])
p("getDumpSize is exact",
  "Typelib::getDumpSize returns exactly the number of bytes Typelib::dump appends for the same value.",
  "every type, every value", "the equality has to hold for every value tree",
  [VO+":getDumpSize", VO+":ByteCounterStream", VO+":VectorOutputStream"])
p("bounded dump never overruns",
  "dump(value, buffer, buffer_size) never writes a byte outside [buffer, buffer+buffer_size); it returns the number of bytes written when the value fits and 0 when it does not, and in the first case the buffer starts with exactly the bytes the unbounded dump produces.",
  "every type, value and buffer size", "every relation between the size of the value and of the buffer has to be covered",
  [VO+":ByteArrayOutputStream", VO+":dump(uint8_t const*, uint8_t*, unsigned int, MemoryLayout const&)"])
p("truncated input is rejected",
  "load from a strict prefix of the bytes dumped for a value never returns normally: it throws, and it does not read outside the input buffer.",
  "every type, every value, every truncation point", "every cut point of every stream",
  [VO+":VectorInputStream::read", VO+":load"])
p("load is memory safe on arbitrary bytes",
  "load from an arbitrary byte sequence into a valid value either throws or returns a valid value; it has no undefined behaviour.",
  "every type, every input byte string, every valid destination", "the input space is all byte strings, including adversarial element counts",
  [VO+":ValueOps::load", CO+":Vector::load", CO+":Vector::resize"])
p("load overwrites previous container contents",
  "Loading a stream dumped from value A into an initialised value B makes B logically equal to A, whatever B contained before.",
  "every type, every pair of valid values", "depends on the previous contents of every container of the destination",
  [VO+":ValueOps::load (FLAG_CONTAINER, element_count == 0)"])
p("load rejects unused input",
  "load(value, buffer) succeeds only if the buffer is consumed entirely, up to the declared trailing padding of the type: a buffer with extra bytes other than exactly the trailing padding is rejected; and a raw memory image of a container-free type (sizeof bytes) is accepted.",
  "every type, value, and number of extra bytes", "all types and all lengths",
  [VO+":load(uint8_t*, Type const&, std::vector<uint8_t> const&, MemoryLayout const&)", TM+":Compound::getTrailingPadding"])
p("compare is logical equality",
  "Typelib::compare(a, b, type) returns true exactly when the two values are logically equal, independently of padding bytes, capacities and trailing padding inside vectors; in particular it is an equivalence relation on valid values.",
  "every type, every pair of valid values", "quantifies over pairs of unbounded values",
  [VO+":ValueOps::compare", CO+":Vector::compare", CO+":String::compare"])
p("copy duplicates the value",
  "Typelib::copy(dst, src) makes dst logically equal to src (deep copy of containers), leaves src unchanged and dst valid, without leaking the containers dst held, whatever dst contained.",
  "every type, every pair of valid values", "unbounded nesting and every combination of old and new container lengths",
  [VO+":ValueOps::copy", CO+":Vector::copy", CO+":Vector::resize"])
p("zero clears the value",
  "Typelib::zero sets every non-container byte covered by the type's layout to 0 and empties every container, without leaking; the value stays valid.",
  "every type, every valid value", "unbounded types",
  [VO+":ValueOps::zero", CO+":Vector::clear", CO+":String::clear"])
p("init produces a valid value",
  "Typelib::init on raw memory of the type's size constructs every container (empty) exactly at its place, sets every enum that has symbols to a declared value and leaves every other byte unchanged; the result is a valid value.",
  "every type, every initial memory contents", "unbounded types, all memory contents",
  [VO+":ValueOps::init", ML+":simplifyInit", ML+":Visitor::visit_(Enum const&)"])
p("destroy releases everything once",
  "Typelib::destroy on a valid value destroys every container reachable in it exactly once (nested elements included): afterwards no live container remains and none was dropped without destruction; init followed by destroy is balanced.",
  "every type, every valid value", "unbounded nesting of containers",
  [VO+":ValueOps::destroy", CO+":Vector::destroy", CO+":Vector::resize"])
p("layout_of fails exactly on unsupported types",
  "layout_of(type) with default flags throws NoLayout exactly when the type contains a pointer or an opaque type; otherwise it succeeds. With accept_pointers the presence of pointers is no reason to fail.",
  "every type, every flag combination", "all type trees",
  [ML+":Visitor", "typelib/memory_layout.hh:layout_of"])
p("layout describes the type byte for byte",
  "For every well-formed type the bytecode returned by layout_of is well formed (validate() accepts it) and, expanded, classifies every byte of the type in order: data bytes are copied, containers are at their offsets, padding is skipped (or copied when merging), and only trailing padding is missing.",
  "every well-formed type, both values of merge_skip_copy", "the optimiser merges arbitrary sequences of operations",
  [ML+":simplify", ML+":Visitor", ML+":validate"])
p("layout_of handles empty arrays and empty elements",
  "layout_of succeeds and describes the type for arrays whose elements are empty or whose dimension is 0.",
  "every type including zero-sized ones", "corner cases depend on what precedes the array",
  [ML+":simplify (added_ops == 0)", ML+":simplifyInit (added_ops == 0)"])
p("remove_trailing_skips=false keeps trailing padding",
  "layout_of(type, .., merge, remove_trailing_skips=false) describes all getSize() bytes of the type, trailing padding included.",
  "every type", "all types", [ML+":simplify", "typelib/memory_layout.hh:layout_of"])
p("vectors behave as sequences",
  "On a valid vector value, push appends a logically equal copy of the pushed element at the end and leaves the previous ones logically unchanged; resize keeps the common prefix; erase(index) removes one element and keeps the order of the others; erase(value) removes the first logically equal element or nothing; delete_if removes exactly the elements matching the predicate.",
  "every element type, every vector contents, every history of operations", "all sequences of operations with all reallocation patterns",
  [CO+":Vector::push", CO+":Vector::erase", CO+":Vector::delete_if_impl", CO+":Vector::resize"])
p("type name order is a strict total order with contiguous namespaces",
  "nameSort is a strict total order on type names, and all names below a namespace are contiguous in it, so that iterating a registry over a namespace prefix visits exactly the names below this prefix.",
  "every pair/triple of names, every set of registered names", "order laws quantify over all strings",
  ["typelib/typename.hh:nameSort", TN+":nameSort", RG+":begin(prefix)", RG+":end(prefix)"])
p("namespace/basename split is lossless",
  "For an absolute type name, getNamespace(name) + getTypename(name) is the name; template arguments are never split; getTypename contains no top-level separator.",
  "every absolute type name", "all strings including nested template argument lists",
  [TN+":splitTypename", TN+":getNamespace", TN+":getTypename"])
p("name validation",
  "isValidTypename/isValidNamespace accept exactly the documented grammar: identifiers separated by '/', optional template arguments, optional array or pointer suffixes.",
  "every string", "all strings", [TN+":isValidTypename", TN+":isValidNamespace", TN+":isValidIdentifier"])
p("registry add/get/has consistency",
  "After registry.add(type) the type is found under its absolute name; every other absolute name resolves as before; adding another type under a taken name throws and changes nothing; the set of names is the set of added names and aliases.",
  "every history of add/alias/remove operations", "all histories",
  [RG+":add", RG+":get", RG+":has", RG+":alias"])
p("default namespace lookup",
  "Looking up a non-absolute name finds the type visible from the default namespace, and the result depends only on the registered names and the namespace, not on the order in which types were added and the namespace was set.",
  "every set of names, every namespace, every order of operations", "order-dependence shows only on particular interleavings",
  [RG+":setDefaultNamespace", RG+":add", RG+":updateCurrentNameMap", RG+":importNamespace"])
p("remove removes exactly the dependents",
  "registry.remove(type) removes the type and exactly the types that depend (directly or not) on it, with all their names, and leaves a registry in which every remaining type's dependencies are still present.",
  "every registry, every removed type", "all dependency graphs",
  [RG+":remove", RG+":reverseDepends"])
p("registry equality",
  "Registry::isSame returns true exactly when both registries define the same names with the same types; it terminates without undefined behaviour.",
  "every pair of registries", "all pairs", [RG+":isSame"])
p("isSame is an equivalence and refines canCastTo",
  "Type::isSame is reflexive and symmetric, and a.isSame(b) implies a.canCastTo(b).",
  "every pair of type graphs, recursive ones included", "all pairs of possibly cyclic type graphs",
  [TM+":Type::isSame", TM+":Type::canCastTo", TM+":rec_compare", TM+":do_compare"])
p("enum maps are coherent",
  "Enum::add/get: a symbol added with a value is found with this value; re-adding a symbol with another value throws and changes nothing; get(value) returns a symbol that has this value whenever there is one and throws otherwise.",
  "every history of add calls", "all histories", [TM+":Enum::add", TM+":Enum::get"])
p("compound layout bookkeeping",
  "Compound::addField keeps the size at least the end of every field; field lookup by name returns the first field added under this name; getTrailingPadding is the distance from the last used byte to the end of the type.",
  "every history of addField calls", "all histories", [TM+":Compound::addField", TM+":Compound::getField", TM+":Compound::getTrailingPadding"])
p("registry resize keeps compounds consistent",
  "Registry::resize: after resizing types, every compound's fields are shifted by the growth of the preceding fields and array/compound sizes are updated, so fields do not overlap.",
  "every registry, every set of new sizes", "all dependency graphs", [RG+":resize", TM+":Compound::do_resize", TM+":Array::do_resize"])
p("export order respects dependencies",
  "Exporter::save of a registry writes every persistent entry exactly once and every type after all the types it depends on; it terminates, and fails with ExportError exactly when dependencies are cyclic or missing.",
  "every registry", "all dependency graphs and iteration orders", ["typelib/exporter.cc:Exporter::save"])
p("XML escaping is lossless",
  "Type names, field names and metadata written by the tlb exporter are read back unchanged by an XML parser.",
  "every string", "all strings", ["lang/tlb/export.cc:xmlEscape", "lang/tlb/xmltools.cc"])
p("tlb export/import round trip",
  "A registry exported to tlb and imported into an empty registry defines the same names with the same types.",
  "every exportable registry", "all registries", ["lang/tlb/export.cc:TlbExportVisitor", "lang/tlb/import.cc:TlbImport::load"])
p("derived type names parse back",
  "The name of an array or pointer type parses back into the element type's name and the modifiers, so TypeBuilder::build finds or rebuilds the same type.",
  "every element name, dimension and sequence of modifiers", "all names and dimensions", ["typelib/typebuilder.cc:TypeBuilder::parseTypename", TM+":Array::getArrayName", TM+":Pointer::getPointerName"])
p("in-place endian swap",
  "swap_endian (visitor) reverses the bytes of every numeric and enum field in place, leaves padding untouched and is an involution.",
  "every type supported, every value", "all types and values", ["typelib/endian_swap.hh:EndianSwapVisitor", "typelib/endian_swap.hh:swap_helper"])
p("compiled endian swap agrees with the in-place one",
  "The compiled swap (CompileEndianSwapVisitor) produces for every value the same bytes as the in-place swap.",
  "every type, every value", "all types and values", ["typelib/endianness.cc:CompileEndianSwapVisitor", "typelib/endianness.hh"])
p("csv header matches csv lines",
  "csv_header and csv_line of the same type/value have the same number of columns in the same order.",
  "every type, every value", "all types and values", ["typelib/csvoutput.cc:csv_header", "typelib/csvoutput.cc:csv_line"])
p("value_cast rejects type mismatches",
  "value_cast<T>(v) returns the value when the type of v is the numeric type T and throws BadValueCast otherwise.",
  "every type, every value", "all types", ["typelib/value_cast.hh", "typelib/value.cc:ValueVisitor"])
p("metadata operations",
  "MetaData set/add/get/clear/merge behave as a map from keys to sets of values; merge is idempotent, and the result contains both operands.",
  "every history of operations", "all histories", [TM+":MetaData"])
p("ConfigSet is a multimap",
  "ConfigSet set/insert/get: set replaces all values of a key, insert adds one, lookups of other keys are unaffected.",
  "every history", "all histories", ["typelib/utilmm/configset.cc"])
p("plugin path splitting",
  "The directories searched for plugins are exactly the non-empty components of TYPELIB_PLUGIN_PATH followed by the default directory.",
  "every path string", "all strings", ["typelib/pluginmanager.cc"])
p("relative names and namespaces",
  "isInNamespace/getRelativeName/getMinimalPathTo: the relative name of a type in a namespace completes back to its absolute name, and resolving the minimal path from the namespace gives the type's namespace back.",
  "every name and namespace", "all names", [TN+":isInNamespace", TN+":getRelativeName", TN+":getMinimalPathTo"])
p("derived aliases",
  "After registry.alias(base, new) the derived names (arrays, pointers, containers of base spelled with the new name) resolve to the types derived from base.",
  "every registry", "all registries and alias sequences", [RG+":alias", TM+":Indirect::modifiedDependencyAliases"])
p("reference counts of wrapped memory",
  "The bindings' memory table frees a block exactly when its last reference is dropped and never frees a referenced block.",
  "every history of ref/unref operations", "all histories", ["bindings/ruby/ext/memory.cc"])
p("C++ name conversion",
  "Converting a Typelib name to C++ and back gives the name.",
  "every name", "all names", ["tools/typelib-clang-tlb-importer/NamingConversions.cpp"])
with open("/verif/properties.jsonl","w") as f:
    for x in P: f.write(json.dumps(x)+"\n")
print(len(P))
