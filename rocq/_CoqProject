-Q theories Verif
theories/Base.v
theories/Types.v
theories/WellFormed.v
theories/Layout.v
theories/LayoutProofs.v
theories/LayoutMain.v
theories/InitProofs.v
theories/LayoutFinal.v
theories/ValueOps.v
theories/ValueSpec.v
theories/ValueAtoms.v
theories/ValueInst.v
theories/WalkProofs.v
theories/InitRun.v
theories/EltOps.v
theories/EltProofs.v
theories/CmpProofs.v
theories/DumpProofs.v
theories/LoadProofs.v
theories/LoadSafe.v
theories/ValueMain.v
theories/LayoutSpec.v
theories/LayoutSpecProofs.v
theories/Properties_Value.v
theories/LayoutKeep.v
theories/Properties_Layout.v
theories/NamesSpec.v
theories/Names.v
theories/NamesProofs.v
theories/NamesGrammar.v
theories/NamesPath.v
theories/Properties_Names.v
theories/Graph.v
theories/GraphSpec.v
theories/GraphProofs.v
theories/Properties_Graph.v
theories/Registry.v
theories/RegistrySpec.v
theories/RegistryProofs.v
theories/RegistryOps.v
theories/RegistryMain.v
theories/RegistryNames.v
theories/RegistryAlias.v
theories/Properties_Registry.v
theories/Resize.v
theories/ResizeSpec.v
theories/ResizeProofs.v
theories/Properties_Resize.v
theories/Vector.v
theories/VectorSpec.v
theories/VectorProofs.v
theories/Properties_Vector.v
theories/Visitor.v
theories/VisitorProofs.v
theories/Endian.v
theories/EndianSpec.v
theories/EndianProofs.v
theories/Properties_Endian.v
theories/Compiled.v
theories/CompiledSpec.v
theories/CompiledProofs.v
theories/Properties_Compiled.v
theories/Csv.v
theories/CsvSpec.v
theories/CsvProofs.v
theories/Properties_Csv.v
theories/CastSpec.v
theories/CastProofs.v
theories/Properties_Cast.v
theories/Smap.v
theories/SmapProofs.v
theories/TypeObj.v
theories/TypeObjSpec.v
theories/TypeObjProofs.v
theories/Properties_TypeObj.v
theories/Exporter.v
theories/ExporterSpec.v
theories/ExporterProofs.v
theories/Properties_Export.v
theories/World.v
theories/TypeBuilder.v
theories/TypeBuilderSpec.v
theories/TypeBuilderProofs.v
theories/Properties_Builder.v
theories/Plugins.v
theories/PluginsSpec.v
theories/PluginsProofs.v
theories/Properties_Plugins.v
theories/Singleton.v
theories/SingletonSpec.v
theories/SingletonProofs.v
theories/Properties_Singleton.v
theories/Config.v
theories/Properties_Config.v
theories/Xml.v
theories/Tlb.v
theories/TlbSpec.v
theories/XmlProofs.v
theories/TlbText.v
theories/TlbDoc.v
theories/Properties_TlbText.v
theories/TlbLoad.v
theories/TlbCore.v
theories/TlbBuild.v
theories/Properties_Tlb.v
theories/Memory.v
theories/MemorySpec.v
theories/MemoryProofs.v
theories/Properties_Memory.v
theories/NameConv.v
theories/NameConvSpec.v
theories/NameConvProofs.v
theories/NameConvPath.v
theories/NameConvBack.v
theories/Properties_NameConv.v
theories/Merge.v
theories/MergeSpec.v
theories/MergeProofs.v
theories/MergeRel.v
theories/MergeMain.v
theories/MergeReg.v
theories/MergeCopy.v
theories/MergeTerm.v
theories/MergeSource.v
theories/MergeCheck.v
theories/Properties_Merge.v
theories/GraphLayout.v
theories/GraphLayoutSpec.v
theories/GraphLayoutProofs.v
theories/Properties_GraphLayout.v
theories/Idl.v
theories/IdlSpec.v
theories/IdlProofs.v
theories/IdlMain.v
theories/Properties_Idl.v
theories/RubyConv.v
theories/RubyConvSpec.v
theories/RubyConvProofs.v
theories/Properties_Ruby.v
theories/Wrapper.v
theories/WrapperSpec.v
theories/WrapperProofs.v
theories/WrapperMain.v
theories/WrapperLoop.v
theories/WrapperInv.v
theories/Properties_Wrapper.v
theories/StreamSpec.v
theories/StreamSafe.v
theories/Properties_Stream.v
theories/StdTypes.v
theories/StdTypesSpec.v
theories/StdTypesProofs.v
theories/Properties_Std.v
theories/CastCopySpec.v
theories/CastCopy.v
theories/CastCopyProofs.v
theories/CastCopyGraph.v
theories/Properties_CastCopy.v
theories/AccessorSpec.v
theories/Accessor.v
theories/AccessorProofs.v
theories/Properties_Accessor.v
theories/CxxRubySpec.v
theories/CxxRuby.v
theories/CxxRubyProofs.v
theories/CxxRubyConv.v
theories/CxxRubyBack.v
theories/Properties_CxxRuby.v
theories/RbCreateSpec.v
theories/RbCreate.v
theories/RbCreateProofs.v
theories/Properties_RbCreate.v
theories/GccxmlSpec.v
theories/Gccxml.v
theories/GccxmlProofs.v
theories/Properties_Gccxml.v
theories/ClangSpec.v
theories/Clang.v
theories/ClangProofs.v
theories/Properties_Clang.v
theories/ConvSpec.v
theories/Conv.v
theories/ConvProofs.v
theories/Properties_Conv.v
theories/RbExportSpec.v
theories/RbExport.v
theories/RbExportProofs.v
theories/Properties_RbExport.v
theories/RecDeps.v
theories/Properties_RecDeps.v
theories/SimpleSpec.v
theories/Simple.v
theories/SimpleProofs.v
theories/Properties_Simple.v
theories/CustomSpec.v
theories/Custom.v
theories/CustomProofs.v
theories/Properties_Custom.v
theories/OfSize.v
theories/Properties_OfSize.v
theories/RubyMetaSpec.v
theories/RubyMeta.v
theories/Properties_RubyMeta.v
theories/FromRubySpec.v
theories/FromRuby.v
theories/FromRubyProofs.v
theories/Properties_FromRuby.v
theories/RubyCallsSpec.v
theories/RubyCalls.v
theories/RubyCallsProofs.v
theories/Properties_RubyCalls.v
theories/RubyOptionsSpec.v
theories/RubyOptions.v
theories/Properties_RubyOptions.v
theories/FreezeSpec.v
theories/Freeze.v
theories/Properties_Freeze.v
theories/DescribeSpec.v
theories/Describe.v
theories/DescribeProofs.v
theories/Properties_Describe.v
theories/Properties_IdlNumbers.v
