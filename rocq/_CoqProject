-Q theories Verif

theories/Base.v
theories/Peresil.v
theories/Token.v
theories/Tokenizer.v
theories/TokenizerSafe.v
theories/TokenizerSpec.v
theories/TokenizerNum.v
theories/TokenizerIter.v
theories/TokenizerLex.v
theories/TokenizerTop.v
theories/TokenizerNumber.v
theories/TokenizerWhole.v
theories/PropertiesTokenizer.v
theories/CommentSpec.v
theories/PropertiesComments.v
theories/Schema.v
theories/Value.v
theories/Nt.v
theories/Grammar.v
theories/Table.v
theories/Visit.v
theories/Apportion.v
theories/Lib.v
theories/Conformance.v
theories/Points.v
theories/Static.v
theories/Typing.v
theories/Safety.v
theories/Yard.v
theories/RunOk.v
theories/FileToks.v
theories/Ends.v
theories/Items.v
theories/Whitespace.v
theories/WhitespaceOk.v
theories/Closure.v
theories/Fresh.v
theories/Extents.v
theories/LibOk.v
theories/HumanOk.v
theories/Amb.v
theories/FileSpec.v
theories/PropertiesFile.v
theories/VisitSpec.v
theories/PropertiesVisit.v
theories/Split.v
theories/Rel.v
theories/Layout.v
theories/Deriv.v
theories/DerivMono.v
theories/DerivOk.v
theories/SpanSpec.v
theories/Spans.v
theories/SpansOk.v
theories/SpansDer.v
theories/SpansFile.v
theories/PropertiesParser.v
theories/Sem.v
theories/First.v
theories/Inv.v
theories/Level.v
theories/Dead.v
theories/Kinds.v
theories/OutlineSpec.v
theories/Reads.v
theories/Accept.v
theories/Syntax.v
theories/UseSpec.v
theories/UseOk.v
theories/RustSpec.v
theories/Rules.v
theories/NestedOk.v
theories/TypesOk.v
theories/BoundsOk.v
theories/ItemsOk.v
theories/MembersOk.v
theories/PatternsOk.v
theories/AtomsOk.v
theories/YardOk.v
theories/ExprOk.v
theories/StmtsOk.v
theories/Followed.v
theories/SyntaxOk.v
theories/PropertiesSyntax.v
theories/PropertiesExpr.v
theories/PropertiesFindings.v
theories/PropertiesSpans.v
theories/MarkSpec.v
theories/Marks.v
theories/MarksOk.v
theories/MarksFile.v
theories/PropertiesMarks.v
theories/LandSpec.v
theories/Lands.v
theories/LandsOk.v
theories/LandsFile.v
theories/PropertiesLands.v
theories/VisitAll.v
theories/Tools.v
theories/PropertiesTools.v
theories/Reach.v
theories/Ahead.v
theories/AheadFile.v
theories/Expect.v
theories/Honest.v
theories/ExpectFile.v
theories/PropertiesErrors.v
theories/CoverSpec.v
theories/Cover.v
theories/CoverOk.v
theories/CoverTidy.v
theories/CoverFile.v
theories/DropSpec.v
theories/Drops.v
theories/DropsOk.v
theories/DropsNeat.v
theories/DropsVals.v
theories/DropsFile.v
theories/Origin.v
theories/DropsSplit.v
theories/DropsWhole.v
theories/AccountSpec.v
theories/Account.v
theories/PropertiesCover.v
theories/HeadSpec.v
theories/Heads.v
theories/HeadsOk.v
theories/HeadsFile.v
theories/PropertiesHeads.v
theories/DelimSpec.v
theories/Delims.v
theories/DelimsFile.v
theories/PropertiesDelims.v
theories/LetSpec.v
theories/Counts.v
theories/KindsFile.v
theories/PropertiesKinds.v
theories/VisitMut.v
theories/MutSpec.v
theories/MutOk.v
theories/PropertiesMut.v
theories/Accessors.v
theories/PropertiesAccessors.v
theories/TokenMethods.v
theories/PropertiesTokenMethods.v
theories/Shift.v
theories/Cut.v
theories/PropertiesCut.v
theories/Join.v
theories/Behind.v
theories/PropertiesJoin.v
theories/Report.v
theories/PropertiesReport.v
theories/Dump.v
theories/PropertiesDump.v
theories/Listing.v
theories/PropertiesListing.v
