-Q theories Verif
theories/Base.v
theories/Regex.v
theories/Datatype.v
theories/Store.v
theories/Deriv.v
theories/Events.v
theories/Lang.v
theories/LangFacts.v
theories/Wp.v
theories/TextProof.v
theories/TagProof.v
theories/AttProof.v
theories/Doc.v
theories/Tail.v
theories/DocProof.v
theories/Accept.v
theories/Compile.v
theories/Schema.v
theories/CompileProof.v
theories/Final.v
theories/LangA.v
theories/Spec.v
theories/SpecFacts.v
theories/Sound.v
theories/Scope.v
theories/Infoset.v
theories/InfosetProof.v
theories/Split.v
theories/Main.v
theories/Steps.v
theories/Perm.v
theories/Reach.v
theories/Words.v
theories/Verdicts.v
theories/Examples.v
theories/View.v
theories/ViewExamples.v
theories/PropsView.v
theories/BalanceSpec.v
theories/Balance.v
theories/PropsValidate.v
theories/Refuted.v
theories/Facets.v
theories/DatatypeSpec.v
theories/DatatypeProof.v
theories/DatatypeProof2.v
theories/DatatypeMain.v
theories/PropsDatatype.v
theories/RefutedDatatype.v
theories/Syntax.v
theories/SchemaCompile.v
theories/SourceSpec.v
theories/SourceScope.v
theories/SourceTr.v
theories/SourceSem.v
theories/SourceCompile.v
theories/SchemaOrder.v
theories/SchemaSpec.v
theories/SchemaMain.v
theories/SchemaVisit.v
theories/SchemaAttr.v
theories/SchemaTerm.v
theories/SchemaDoc.v
theories/SchemaCombine.v
theories/SchemaExamples.v
theories/SchemaGood.v
theories/SchemaGoodEx.v
theories/SchemaProgress.v
theories/SchemaKept.v
theories/SchemaKeptEx.v
theories/PropsKept.v
theories/PropsSchema.v
theories/RefutedSchema.v
theories/CompactParse.v
theories/CompactTotal.v
theories/CompactText.v
theories/CompactLex.v
theories/CompactRead.v
theories/CompactReadPat.v
theories/CompactReadMain.v
theories/CompactReadTop.v
theories/CompactSound.v
theories/CompactPrint.v
theories/CompactNames.v
theories/CompactMain.v
theories/CompactDoc.v
theories/PropsCompact.v
theories/RefutedCompact.v
theories/PropsCompactDoc.v
theories/RefSpec.v
theories/RefProof.v
theories/RefExamples.v
theories/PropsError.v
theories/XmlSyntax.v
theories/RngXml.v
theories/XmlScope.v
theories/XmlBase.v
theories/XmlProof.v
theories/XmlCheck.v
theories/XmlAnnot.v
theories/XmlDoc.v
theories/XmlRefuse.v
theories/XmlExamples.v
theories/PropsXml.v
theories/RefutedXml.v
theories/RefutedXmlNs.v
theories/Diag.v
theories/DiagProof.v
theories/FuelMono.v
theories/Tool.v
theories/ToolProof.v
theories/Expected.v
theories/ToolExamples.v
theories/PropsTool.v
theories/RefutedTool.v
theories/RepoTests.v
theories/FacetAt.v
theories/Located.v
theories/LocatedProof.v
theories/PropsLocated.v
theories/SchemaCheck.v
theories/PropsCheck.v
theories/SchemaDefault.v
theories/SchemaQual.v
theories/PropsDefault.v
theories/CompactSpans.v
theories/CompactSpansProof.v
theories/CompactSpansPlace.v
theories/CompactSpansMain.v
theories/PropsSpans.v
theories/Runs.v
theories/DatatypeMore.v
theories/PathProof.v
theories/PropsDatatype2.v
theories/PropsPath.v
theories/Accessors.v
theories/AccessorsSpec.v
theories/AccessorsProof.v
theories/PropsAccess.v
theories/SchemaLocal.v
theories/PropsLocal.v
theories/Convert.v
theories/ConvertRead.v
theories/ConvertCompile.v
theories/PropsConvert.v
theories/ParamSpec.v
theories/ParamProof.v
theories/TextSpec.v
theories/TextFacts.v
theories/PropsText.v
theories/PropsParam.v
theories/Condense.v
theories/CondenseExamples.v
theories/PropsPieces.v
theories/Where.v
theories/WhereSpec.v
theories/WhereProof.v
theories/WhereSim.v
theories/PropsWhere.v
theories/CompactError.v
theories/CompactErrorSim.v
theories/CompactErrorProof.v
theories/PropsSyntaxError.v
theories/SchemaReach.v
theories/SchemaTermExt.v
theories/SchemaShows.v
theories/PropsReach.v
theories/Session.v
theories/SessionProof.v
theories/PropsSession.v
theories/DurationSpec.v
theories/DurationProof.v
theories/PropsDuration.v
theories/SchemaEscape.v
theories/PropsEscape.v
theories/AttrOnce.v
theories/PropsAttr.v
theories/SchemaInherit.v
theories/SchemaInheritEx.v
theories/PropsInherit.v
theories/SchemaPrefix.v
theories/PropsPrefix.v
theories/SchemaWrap.v
theories/SchemaWrapEx.v
theories/PropsWrap.v
theories/SchemaShuffle.v
theories/PropsShuffle.v
theories/SchemaPlain.v
theories/SchemaPlainEx.v
theories/PropsPlain.v
theories/SchemaRename.v
theories/PropsRename.v
theories/SchemaRetag.v
theories/PropsRetag.v
theories/SchemaMove.v
theories/PropsMove.v
theories/DocPrefix.v
theories/PropsDocPrefix.v
theories/DocUnused.v
theories/PropsDocUnused.v
theories/DocWhere.v
theories/PropsDocWhere.v
theories/RefutedMore.v
