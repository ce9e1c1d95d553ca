-Q theories Verif
theories/Chars.v
theories/Ast.v
theories/Traits.v
theories/Containers.v
theories/Matcher.v
theories/Api.v
theories/Adapter.v
theories/Views.v
theories/Xpr.v
theories/Grammar.v
theories/Parser.v
theories/Equality.v
theories/Conformance.v
theories/ConformanceUnits.v
theories/Basics.v
theories/Safe.v
theories/Cong.v
theories/Impl.v
theories/Spec.v
theories/Paths.v
theories/Mirror.v
theories/Adequacy.v
theories/Calls.v
theories/Lift.v
theories/Matching.v
theories/Equiv.v
theories/Walk.v
theories/Exact.v
theories/Actual.v
theories/Tracks.v
theories/Tracking.v
theories/Classes.v
theories/Examples.v
theories/Prop_Matching.v
theories/Generators.v
theories/Results.v
theories/Relate.v
theories/Runs.v
theories/Uniform.v
theories/Regroup.v
theories/Pairs.v
theories/Prop_Regroup.v
theories/Steps.v
theories/Normal.v
theories/Syntax.v
theories/Typing.v
theories/Shape.v
theories/Scan.v
theories/Reading.v
theories/Accepted.v
theories/Viable.v
theories/Escapes.v
theories/Compile.v
theories/Notes.v
theories/Stuck.v
theories/Print.v
theories/Literal.v
theories/Sets.v
theories/Braces.v
theories/Expressions.v
theories/Parsed.v
theories/Numbering.v
theories/Prop_Parser.v
theories/BraceGroups.v
theories/Prop_Syntax.v
theories/Prop_Expressions.v
theories/Scans.v
theories/Prop_Results.v
theories/Groups.v
theories/Keeps.v
theories/Held.v
theories/Failed.v
theories/Last.v
theories/Prop_Groups.v
theories/Prop_Backrefs.v
theories/Utilities.v
theories/Prop_Utilities.v
theories/Prop_Notes.v
theories/Viewing.v
theories/Prop_Views.v
theories/Explore.v
theories/Explored.v
theories/Follows.v
theories/Searches.v
theories/Iterations.v
theories/Prop_Exact.v
theories/Forward.v
theories/LineStarts.v
theories/LeadingLines.v
theories/OpeningLines.v
theories/FirstLines.v
theories/Prop_Forward.v
theories/Classical.v
theories/Prop_Classical.v
theories/Composed.v
theories/Prop_Composed.v
theories/Costs.v
theories/Costing.v
theories/Depth.v
theories/Effort.v
theories/Exponential.v
theories/Budget.v
theories/AtomicCosts.v
theories/Prop_Costs.v
theories/ParserCosts.v
theories/ParserDepth.v
theories/Prop_ParserCosts.v
theories/Flags.v
theories/Prop_Flags.v
theories/Anchored.v
theories/Prop_Anchored.v
theories/Shift.v
theories/Prop_Shift.v
theories/Contained.v
theories/Prop_Contained.v
theories/RangeCosts.v
theories/RangeEffort.v
theories/Prop_RangeCosts.v
theories/Exceptions.v
theories/Raised.v
theories/Prop_Exceptions.v
theories/Laws.v
theories/Prop_Laws.v
theories/Lengths.v
theories/Prop_Lengths.v
theories/Widening.v
theories/Prop_Widening.v
theories/Compose.v
theories/Prop_Compose.v
theories/Inverted.v
theories/Prop_Inverted.v
theories/Comparing.v
theories/Template.v
theories/Sample.v
theories/Prop_Template.v
theories/WordRuns.v
theories/LogLine.v
theories/Prop_Samples.v
theories/Surrounded.v
theories/Prop_Surrounded.v
theories/Records.v
theories/Prop_Records.v
theories/Alike.v
theories/Prop_Alike.v
theories/Tight.v
theories/Seen.v
theories/Prop_Seen.v
theories/Lines.v
theories/Prop_Lines.v
theories/Linear.v
theories/Linear2.v
theories/Prop_Linear.v
theories/Harden.v
theories/Prop_Harden.v
theories/Boolean.v
theories/Prop_Boolean.v
theories/InvertedExact.v
theories/Gaps.v
theories/GapTokens.v
theories/Prop_Gaps.v
theories/Appended.v
theories/Prop_Appended.v
theories/Ordered.v
theories/Rewrites.v
theories/Prop_Rewrites.v
theories/Exchange.v
theories/Exchanged.v
theories/DeadBodies.v
theories/Prop_Exchange.v
theories/Cursors.v
theories/Positions.v
theories/Prop_Cursors.v
theories/Laminar.v
theories/Prop_Laminar.v
theories/Moves.v
theories/Taken.v
theories/Prop_Taken.v
theories/Paying.v
theories/PayingParts.v
theories/PayingNodes.v
theories/Tries.v
theories/Ambiguities.v
theories/Prop_Tries.v
theories/Commits.v
theories/CommitsAll.v
theories/Prop_Commits.v
theories/Machines.v
theories/Memory.v
theories/Prop_Memory.v
theories/Passes.v
theories/Prop_Passes.v
theories/SameRanges.v
theories/Prop_SameRanges.v
theories/Kleene.v
theories/Prop_Kleene.v
theories/Dropped.v
theories/DroppedRanges.v
theories/DroppedUsable.v
theories/Prop_Dropped.v
