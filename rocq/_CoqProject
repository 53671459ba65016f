-Q theories Verif
theories/Base.v
theories/TypesModel.v
theories/TypesSpec.v
theories/TypesProofs.v
theories/TypesProps.v
theories/FMap.v
theories/FMapFacts.v
theories/ExtSetModel.v
theories/ExtSetSpec.v
theories/ExtSetProofs.v
theories/ExtSetProps.v
theories/LoadModel.v
theories/LoadSpec.v
theories/LoadProofs.v
theories/LoadProps.v
theories/DecimalModel.v
theories/DecimalSpec.v
theories/DecimalProofs.v
theories/DecimalProps.v
theories/TimeModel.v
theories/TimeSpec.v
theories/TimeProofs.v
theories/TimeProps.v
theories/SigModel.v
theories/SigSpec.v
theories/SigProofs.v
theories/SigMatchProofs.v
theories/SigEvalProofs.v
theories/SigResultProofs.v
theories/SigProps.v
theories/LitModel.v
theories/LitSpec.v
theories/LitProofs.v
theories/LitProps.v
theories/ExprModel.v
theories/ExprOpsModel.v
theories/ExprSpec.v
theories/ExprProofs.v
theories/ExprWireProofs.v
theories/ExprDeclProofs.v
theories/ExprVisitProofs.v
theories/ExprEqProofs.v
theories/ExprEqvProofs.v
theories/ExprBuildProofs.v
theories/ExprScalarProofs.v
theories/ExprProps.v
theories/ExprTypeProps.v
theories/FuncModel.v
theories/FuncSpec.v
theories/FuncTypeProofs.v
theories/FuncDialectProofs.v
theories/FuncProps.v
theories/PlanModel.v
theories/PlanOpsModel.v
theories/PlanAliasModel.v
theories/PlanSpec.v
theories/PlanProofs.v
theories/PlanBuildProofs.v
theories/PlanGroupProofs.v
theories/PlanProps.v
theories/PlanRewriteSpec.v
theories/PlanRewriteProofs.v
theories/PlanRewriteProps.v
theories/PlanAliasSpec.v
theories/PlanAliasProofs.v
theories/PlanAliasProps.v
theories/PlanWireSpec.v
theories/PlanWireProofs.v
theories/PlanWireProps.v
theories/PlanTripSpec.v
theories/PlanTripProofs.v
theories/PlanTripProps.v
theories/TextModel.v
theories/TextSpec.v
theories/TextLexProofs.v
theories/TextNameProofs.v
theories/TextTokProofs.v
theories/TextTreeProofs.v
theories/TextTypeProofs.v
theories/TextTopProofs.v
theories/TextSaneProofs.v
theories/TextGrammarSpec.v
theories/TextMeaningProofs.v
theories/TextMunchProofs.v
theories/TextCaseProofs.v
theories/TextProps.v
theories/ExtendedModel.v
theories/ExtendedSpec.v
theories/ExtendedProps.v
theories/CalModel.v
theories/CalSpec.v
theories/CalProofs.v
theories/CalTextProofs.v
theories/CalPrintProofs.v
theories/CalProps.v
theories/IntervalModel.v
theories/IntervalSpec.v
theories/IntervalProofs.v
theories/IntervalTextProofs.v
theories/IntervalProps.v
theories/IntervalFloatSpec.v
theories/IntervalFloatProps.v
theories/DecTextModel.v
theories/DecTextSpec.v
theories/DecTextProps.v
theories/TestCaseModel.v
theories/TestCaseSpec.v
theories/TestCaseProofs.v
theories/TestCaseProps.v
theories/TestColumnSpec.v
theories/TestColumnProps.v
theories/TestInvokeModel.v
theories/TestInvokeSpec.v
theories/TestInvokeProps.v
theories/DeclModel.v
theories/DeclSpec.v
theories/DeclProps.v
theories/TestPrintModel.v
theories/TestPrintSpec.v
theories/TestPrintProofs.v
theories/TestPrintReadProofs.v
theories/TestPrintOneProofs.v
theories/TestPrintProps.v
theories/FloatModel.v
theories/FloatSpec.v
theories/FloatProofs.v
theories/FloatTextProofs.v
theories/FloatProps.v
theories/DecPrintModel.v
theories/DecPrintSpec.v
theories/DecPrintProofs.v
theories/DecPrintProps.v
theories/SigParamSpec.v
theories/SigParamProps.v
theories/ExprTextModel.v
theories/ExprTextSpec.v
theories/ExprTextProofs.v
theories/ExprTextProps.v
theories/CloneModel.v
theories/CloneSpec.v
theories/CloneProofs.v
theories/CloneProps.v
theories/OnceModel.v
theories/OnceSpec.v
theories/OnceProofs.v
theories/OnceProps.v
theories/VariantModel.v
theories/VariantSpec.v
theories/VariantProofs.v
theories/VariantProps.v
theories/TestLexModel.v
theories/TestLexSpec.v
theories/TestLexProofs.v
theories/TestNameProofs.v
theories/TestLexProps.v
theories/TestParseModel.v
theories/TestParseSpec.v
theories/TestParseProofs.v
theories/TestFileProofs.v
theories/TestDocProofs.v
theories/TestParseProps.v
theories/FluentModel.v
theories/FluentSpec.v
theories/FluentProps.v
theories/RegCopyModel.v
theories/RegCopySpec.v
theories/RegCopyProps.v
theories/NullSetModel.v
theories/NullSetSpec.v
theories/NullSetProps.v
theories/AggShareModel.v
theories/AggShareSpec.v
theories/AggShareProps.v
theories/RelObjModel.v
theories/RelObjSpec.v
theories/RelObjProps.v
theories/PlanSetModel.v
theories/PlanSetSpec.v
theories/PlanSetProps.v
