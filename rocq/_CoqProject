-Q theories Verif
theories/Prelude.v
theories/Keyword.v
theories/Enums.v
theories/LangTag.v
theories/Container.v
theories/Json.v
theories/Compare.v
theories/Stack.v
theories/LangString.v
theories/AddValue.v
theories/Headers.v
theories/Loader.v
theories/ContextSyntax.v
theories/ContextSyntaxProofs.v
theories/Grammar.v
theories/Str.v
theories/Ctx.v
theories/Process.v
theories/ProcessMono.v
theories/ProcessRel.v
theories/Protected.v
theories/NoErr.v
theories/Termination.v
theories/NoPanic.v
theories/ProcessExt.v
theories/Cycles.v
theories/Samples.v
theories/Null.v
theories/IriSpec.v
theories/Frame.v
theories/Created.v
theories/PropSyntax.v
theories/PropLoader.v
theories/PropContext.v
theories/PropProcess.v
theories/PropProtected.v
theories/PropIri.v
theories/PropSimplify.v
theories/PropFrame.v
theories/PropMode.v
theories/Inverse.v
theories/PropInverse.v
theories/Object.v
theories/ObjectEq.v
theories/ObjectJson.v
theories/ObjectJsonProofs.v
theories/PropObject.v
theories/Traverse.v
theories/PropTraverse.v
theories/Relabel.v
theories/RelabelProofs.v
theories/PropRelabel.v
theories/Flatten.v
theories/FlattenProofs.v
theories/FlattenSpec.v
theories/FlattenEffect.v
theories/FlattenOutput.v
theories/PropFlatten.v
theories/PropFlattenRdf.v
theories/Rdf.v
theories/RdfProofs.v
theories/RdfSpec.v
theories/PropRdf.v
theories/FromRdf.v
theories/FromRdfProofs.v
theories/FromRdfRender.v
theories/PropFromRdf.v
theories/CompactIri.v
theories/CompactIriProofs.v
theories/CompactIriRead.v
theories/CompactIriTerm.v
theories/PropCompactIri.v
theories/Sound.v
theories/Expand.v
theories/ExpandValue.v
theories/ExpandOk.v
theories/PropExpand.v
theories/Compact.v
theories/CompactValue.v
theories/CompactProofs.v
theories/CompactKept.v
theories/PropCompact.v
theories/TripLists.v
theories/RoundTrip.v
theories/PropTrip.v
theories/ExpandFuel.v
theories/Laws.v
theories/PropLaws.v
theories/Laws2.v
theories/PropLaws2.v
theories/Processor.v
theories/ProcessorProofs.v
theories/PropProcessor.v
theories/BaseFree.v
theories/OrigFree.v
theories/PropProcessor2.v
theories/FlattenWf.v
theories/PropProcessor3.v
theories/MappedEq.v
theories/PropMappedEq.v
theories/Reify.v
theories/ReifyRead.v
theories/ReifyShape.v
theories/PropReify.v
theories/Reexpand.v
theories/PropReexpand.v
theories/LinkedData.v
theories/LinkedDataProofs.v
theories/LinkedDataMore.v
theories/PropLinkedData.v
theories/Placed.v
theories/PlacedItems.v
theories/PlacedNodes.v
theories/PropPlaced.v
theories/Print.v
theories/PrintProofs.v
theories/PrintRead.v
theories/PropPrint.v
theories/MapIds.v
theories/MapIdsProofs.v
theories/PropMapIds.v
theories/NodeEdit.v
theories/NodeEditProofs.v
theories/PropNodeEdit.v
theories/CtxTraverse.v
theories/PropCtxTraverse.v
theories/Policy.v
theories/PolicyNames.v
theories/PropPolicy.v
theories/Merge.v
theories/PropMerge.v
theories/ShuffleNode.v
theories/Shuffle.v
theories/PropShuffle.v
theories/ContextOrder.v
theories/PropContextOrder.v
theories/Interchange.v
theories/InterchangeCompact.v
theories/PropInterchange.v
theories/Fs.v
theories/PropFs.v
theories/MainNode.v
theories/PropMainNode.v
theories/Store.v
theories/StoreExpand.v
theories/StoreApi.v
theories/PropStore.v
theories/CtxEq.v
theories/PropCtxEq.v
theories/Entries.v
theories/PropEntries.v
theories/Warn.v
theories/PropWarn.v
theories/Cyclic.v
theories/PropCyclic.v
theories/Blame.v
theories/PropBlame.v
theories/Unprotected.v
theories/PropUnprotected.v
theories/Flat.v
theories/PropFlat.v
theories/FlatDoc.v
theories/FlatSame.v
theories/PropFlatDoc.v
