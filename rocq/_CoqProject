-Q theories Verif
theories/Util.v
theories/Base.v
theories/Lexer.v
theories/LexerSpec.v
theories/LexerProofs.v
theories/LexerMeta.v
theories/LexerMore.v
theories/P_Lexer.v
theories/StringConv.v
theories/StringConvSpec.v
theories/StringConvProofs.v
theories/P_StringConv.v
theories/Serializer.v
theories/SerializerSpec.v
theories/SerializerProofs.v
theories/P_Serializer.v
theories/UMap.v
theories/UMapSpec.v
theories/UMapProofs.v
theories/UMapMore.v
theories/UMapIter.v
theories/P_UMap.v
theories/Exec.v
theories/ExecSpec.v
theories/ExecProofs.v
theories/ExecMore.v
theories/ExecKinds.v
theories/P_Exec.v
theories/P_Exec2.v
theories/P_Reentry.v
theories/P_EndToEnd.v
theories/Mem.v
theories/MemProofs.v
theories/MemOwners.v
theories/StringMem.v
theories/StringMemSpec.v
theories/StringMemProofs.v
theories/P_StringMem.v
theories/VectorMem.v
theories/VectorMemSpec.v
theories/VectorMemProofs.v
theories/P_VectorMem.v
theories/VectorThrow.v
theories/VectorThrowSpec.v
theories/VectorThrowProofs.v
theories/P_VectorThrow.v
theories/Lifetimes.v
theories/LifetimesSpec.v
theories/P_Lifetimes.v
theories/Moves.v
theories/MovesSpec.v
theories/P_Moves.v
theories/FloatConv.v
theories/FloatConvSpec.v
theories/FloatArith.v
theories/FloatRound.v
theories/FloatScan.v
theories/FloatConvProofs.v
theories/FloatRoundTrip.v
theories/P_Float.v
theories/FloatSerializer.v
theories/P_FloatSerializer.v
theories/UMapRel.v
theories/Handlers.v
theories/HandlersSpec.v
theories/HandlersProofs.v
theories/P_Handlers.v
theories/Printf.v
theories/PrintfSpec.v
theories/PrintfProofs.v
theories/Messages.v
theories/MessagesProofs.v
theories/P_Printf.v
theories/ArgPass.v
theories/ArgPassSpec.v
theories/ArgPassProofs.v
theories/ArgPassCalls.v
theories/ArgPassInvoke.v
theories/P_ArgPass.v
theories/HandlersThrow.v
theories/HandlersThrowSpec.v
theories/HandlersThrowProofs.v
theories/P_HandlersThrow.v
theories/MapMem.v
theories/MapMemSpec.v
theories/MapMemProofs.v
theories/MapMemErase.v
theories/MapMemWorld.v
theories/P_MapMem.v
theories/Traits.v
theories/TraitsSpec.v
theories/TraitsProofs.v
theories/P_Traits.v
theories/LexerCost.v
theories/LexerCostProofs.v
theories/P_LexerCost.v
theories/StringThrow.v
theories/StringThrowSpec.v
theories/StringThrowProofs.v
theories/P_StringThrow.v
theories/UMapCost.v
theories/UMapCostSpec.v
theories/UMapCostProofs.v
theories/P_UMapCost.v
theories/TextLife.v
theories/TextLifeSpec.v
theories/TextLifeProofs.v
theories/P_TextLife.v
theories/Scoped.v
theories/ScopedSpec.v
theories/ScopedProofs.v
theories/P_Scoped.v
theories/Enums.v
theories/EnumsSpec.v
theories/EnumsProofs.v
theories/EnumsRead.v
theories/EnumsFlags.v
theories/P_Enums.v
theories/UserTypes.v
theories/UserTypesSpec.v
theories/FloatFixed.v
theories/UserTypesProofs.v
theories/P_UserTypes.v
theories/Console.v
theories/ConsoleSpec.v
theories/P_Console.v
theories/NamedExample.v
theories/NamedExampleSpec.v
theories/NamedExampleProofs.v
theories/P_NamedExample.v
theories/ExecThrow.v
theories/ExecThrowSpec.v
theories/ExecThrowProofs.v
theories/ExecThrowMore.v
theories/P_ExecThrow.v
theories/Blocks.v
theories/BlocksSpec.v
theories/BlocksProofs.v
theories/BlocksLexer.v
theories/BlocksExec.v
theories/BlocksRun.v
theories/P_Blocks.v
theories/ExecCost.v
theories/ExecCostSpec.v
theories/ExecCostProofs.v
theories/ExecCostBounds.v
theories/P_ExecCost.v
theories/Tests_Lexer.v
theories/Tests_StringConv.v
theories/Tests_TypeSerializer.v
theories/Tests_Bindings.v
theories/Tests_Containers.v
theories/AdvancedExample.v
theories/AdvancedExampleSpec.v
theories/AdvancedExampleProofs.v
theories/P_AdvancedExample.v
theories/ExampleSession.v
theories/ExampleSpec.v
theories/ExampleProofs.v
theories/FloatOps.v
theories/FloatOpsSpec.v
theories/FloatOpsProofs.v
theories/PropertiesExample.v
theories/PropertiesExampleSpec.v
theories/P_PropertiesExample.v
theories/VariadicExample.v
theories/VariadicExampleSpec.v
theories/P_VariadicExample.v
theories/ErrorsExample.v
theories/ErrorsExampleSpec.v
theories/P_ErrorsExample.v
theories/ExampleHistory.v
theories/ExampleMore.v
theories/VariablesExample.v
theories/VariablesExampleSpec.v
theories/P_VariablesExample.v
theories/FloatTextSpec.v
theories/FloatTextProofs.v
theories/P_FloatText.v
theories/OverloadingExample.v
theories/OverloadingExampleSpec.v
theories/P_OverloadingExample.v
theories/FloatSum.v
theories/FloatSumSpec.v
theories/FloatSumProofs.v
theories/BasicExample.v
theories/BasicExampleSpec.v
theories/P_BasicExample.v
theories/UsertypesExample.v
theories/UsertypesExampleSpec.v
theories/P_UsertypesExample.v
theories/CompoundExample.v
theories/CompoundExampleSpec.v
theories/P_CompoundExample.v
theories/FlagsExample.v
theories/FlagsExampleSpec.v
theories/P_FlagsExample.v
theories/EnumsExample.v
theories/EnumsExampleSpec.v
theories/P_EnumsExample.v
