-Q theories Verif

theories/Model/Build.v
theories/Model/Command.v
theories/Model/Context.v
theories/Model/Float.v
theories/Model/Generators.v
theories/Model/Magic.v
theories/Model/Manager.v
theories/Model/Names.v
theories/Model/Parser.v
theories/Model/ParserCache.v
theories/Model/Rng.v
theories/Model/Sampler.v
theories/Model/Session.v
theories/Model/Stack.v
theories/Model/Str.v
theories/Model/Structured.v
theories/Model/TextFile.v
theories/Model/Tree.v
theories/Model/Utils.v
theories/Model/Values.v
theories/Spec/Akin.v
theories/Spec/Alike.v
theories/Spec/Blank.v
theories/Spec/Braces.v
theories/Spec/Build.v
theories/Spec/Causes.v
theories/Spec/Chance.v
theories/Spec/Choices.v
theories/Spec/Choosy.v
theories/Spec/CleanUp.v
theories/Spec/Comb.v
theories/Spec/Count.v
theories/Spec/Cycle.v
theories/Spec/Draws.v
theories/Spec/Enum.v
theories/Spec/Even.v
theories/Spec/Everyday.v
theories/Spec/Exhaust.v
theories/Spec/Express.v
theories/Spec/FileWildcard.v
theories/Spec/Files.v
theories/Spec/Fixed.v
theories/Spec/Generators.v
theories/Spec/Guide.v
theories/Spec/Inline.v
theories/Spec/Items.v
theories/Spec/Lang.v
theories/Spec/Lookup.v
theories/Spec/Magic.v
theories/Spec/Mention.v
theories/Spec/Names.v
theories/Spec/Odds.v
theories/Spec/Pace.v
theories/Spec/Param.v
theories/Spec/Phrases.v
theories/Spec/Regex.v
theories/Spec/Reseed.v
theories/Spec/Rolls.v
theories/Spec/Seeds.v
theories/Spec/Select.v
theories/Spec/Session.v
theories/Spec/Shape.v
theories/Spec/Share.v
theories/Spec/Shuffle.v
theories/Spec/StreamRng.v
theories/Spec/Sure.v
theories/Spec/Syntax.v
theories/Spec/Tabs.v
theories/Spec/Text.v
theories/Spec/Tree.v
theories/Spec/Weights.v
theories/Spec/Write.v
theories/Proofs/AkinFacts.v
theories/Proofs/AlikeFacts.v
theories/Proofs/AttentionFacts.v
theories/Proofs/BindFacts.v
theories/Proofs/BlankFacts.v
theories/Proofs/BraceFacts.v
theories/Proofs/BuildFacts.v
theories/Proofs/CacheFacts.v
theories/Proofs/CausesFacts.v
theories/Proofs/CausesRun.v
theories/Proofs/ChanceFacts.v
theories/Proofs/ChanceRun.v
theories/Proofs/ChoosyFacts.v
theories/Proofs/CleanUpFacts.v
theories/Proofs/CombFacts.v
theories/Proofs/CombRun.v
theories/Proofs/CommandFacts.v
theories/Proofs/CountFacts.v
theories/Proofs/CycleFacts.v
theories/Proofs/DictFacts.v
theories/Proofs/DrawFacts.v
theories/Proofs/EndFacts.v
theories/Proofs/EnumFacts.v
theories/Proofs/EnumRun.v
theories/Proofs/EvenFacts.v
theories/Proofs/EverydayFacts.v
theories/Proofs/ExhaustFacts.v
theories/Proofs/ExhaustRun.v
theories/Proofs/ExpressFacts.v
theories/Proofs/FairFacts.v
theories/Proofs/FileFacts.v
theories/Proofs/FixedFacts.v
theories/Proofs/FloatFacts.v
theories/Proofs/FloatScale.v
theories/Proofs/FuelFacts.v
theories/Proofs/GeneratorFacts.v
theories/Proofs/GlobFacts.v
theories/Proofs/GuideFacts.v
theories/Proofs/HistoryFacts.v
theories/Proofs/InlineFacts.v
theories/Proofs/JinjaFacts.v
theories/Proofs/LiveFacts.v
theories/Proofs/LookupFacts.v
theories/Proofs/MagicFacts.v
theories/Proofs/MakeFacts.v
theories/Proofs/ManagerFacts.v
theories/Proofs/MentionFacts.v
theories/Proofs/MixedFacts.v
theories/Proofs/NamesFacts.v
theories/Proofs/OddsExist.v
theories/Proofs/OddsFacts.v
theories/Proofs/OddsRun.v
theories/Proofs/PaceFacts.v
theories/Proofs/ParamFacts.v
theories/Proofs/ParserFacts.v
theories/Proofs/PhraseFacts.v
theories/Proofs/PipelineFacts.v
theories/Proofs/PlainFacts.v
theories/Proofs/PortionFacts.v
theories/Proofs/PureFacts.v
theories/Proofs/ReachFacts.v
theories/Proofs/ReadFacts.v
theories/Proofs/ReseedFacts.v
theories/Proofs/RngFacts.v
theories/Proofs/RollBack.v
theories/Proofs/RollFacts.v
theories/Proofs/RollRun.v
theories/Proofs/RunFacts.v
theories/Proofs/SeedFacts.v
theories/Proofs/SeqFacts.v
theories/Proofs/ServeFacts.v
theories/Proofs/SessionFacts.v
theories/Proofs/ShapeFacts.v
theories/Proofs/ShareFacts.v
theories/Proofs/ShareRun.v
theories/Proofs/ShuffleFacts.v
theories/Proofs/Soundness.v
theories/Proofs/StackFacts.v
theories/Proofs/StepFacts.v
theories/Proofs/StrFacts.v
theories/Proofs/SwapFacts.v
theories/Proofs/SyntaxFacts.v
theories/Proofs/TabFacts.v
theories/Proofs/TokenFacts.v
theories/Proofs/TreeFacts.v
theories/Proofs/UtilsFacts.v
theories/Proofs/ValuesFacts.v
theories/Proofs/WeightsFacts.v
theories/Proofs/WeightsRun.v
theories/Proofs/WildRun.v
theories/Proofs/WriteFacts.v
theories/Properties/P_Akin.v
theories/Properties/P_Alike.v
theories/Properties/P_Blank.v
theories/Properties/P_Braces.v
theories/Properties/P_Build.v
theories/Properties/P_Cache.v
theories/Properties/P_Causes.v
theories/Properties/P_Chance.v
theories/Properties/P_Choice.v
theories/Properties/P_Choosy.v
theories/Properties/P_CleanUp.v
theories/Properties/P_Comb.v
theories/Properties/P_Count.v
theories/Properties/P_Cycle.v
theories/Properties/P_EndToEnd.v
theories/Properties/P_Even.v
theories/Properties/P_Exhaust.v
theories/Properties/P_Express.v
theories/Properties/P_Files.v
theories/Properties/P_Fixed.v
theories/Properties/P_Float.v
theories/Properties/P_Generators.v
theories/Properties/P_Guide.v
theories/Properties/P_Inline.v
theories/Properties/P_Likely.v
theories/Properties/P_Live.v
theories/Properties/P_Magic.v
theories/Properties/P_Manager.v
theories/Properties/P_Mention.v
theories/Properties/P_Mixed.v
theories/Properties/P_Names.v
theories/Properties/P_Odds.v
theories/Properties/P_Pace.v
theories/Properties/P_Param.v
theories/Properties/P_Parser.v
theories/Properties/P_Phrases.v
theories/Properties/P_Portion.v
theories/Properties/P_Reseed.v
theories/Properties/P_Rolls.v
theories/Properties/P_Sampler.v
theories/Properties/P_Session.v
theories/Properties/P_Share.v
theories/Properties/P_Shuffle.v
theories/Properties/P_Stack.v
theories/Properties/P_Step.v
theories/Properties/P_Tabs.v
theories/Properties/P_Text.v
theories/Properties/P_Tree.v
theories/Properties/P_Weights.v
theories/Properties/P_Write.v
theories/Tests/T_Data.v
theories/Tests/T_Generators.v
theories/Tests/T_Parser.v
theories/Tests/T_Samplers.v
theories/Tests/T_Wildcards.v
