-Q theories Verif
theories/TableModel.v
theories/TableSpec.v
theories/TableProofs.v
theories/TableProofs2.v
theories/TableProps.v
theories/EngineModel.v
theories/EngineSpec.v
theories/EngineProofs1.v
theories/EngineProofs2.v
theories/EngineProofs3.v
theories/EngineProofs4.v
theories/EngineProofs5.v
theories/EngineProofs6.v
theories/EngineProofs7.v
theories/EngineProofs8.v
theories/EngineProofs9.v
theories/StrategyModel.v
theories/StrategySpec.v
theories/StrategyProofs.v
theories/StrategyProofs2.v
theories/StrategyProofs3.v
theories/StrategyProps.v
theories/EngineProofs10.v
theories/EngineProofs11.v
theories/EngineProofs12.v
theories/EngineProofs13.v
theories/EngineProps.v
theories/PermModel.v
theories/PermProofs.v
theories/PermProofs2.v
theories/PermProps.v
theories/IntModel.v
theories/IntSpec.v
theories/IntProofs.v
theories/IntProps.v
theories/ExprModel.v
theories/ExprSpec.v
theories/ExprProofs.v
theories/ExprProofs2.v
theories/ExprProofs3.v
theories/ExprProofs4.v
theories/ExprFunModel.v
theories/ExprFunProofs.v
theories/ExprProps.v
theories/ColumnModel.v
theories/ColumnSpec.v
theories/ColumnProofs.v
theories/ColumnProofs2.v
theories/ColumnProofs3.v
theories/ColumnProofs4.v
theories/ColumnProps.v
theories/ScanModel.v
theories/ScanSpec.v
theories/ScanProofs.v
theories/ScanProofs2.v
theories/ScanProofs3.v
theories/ScanProofs4.v
theories/ScanProofs5.v
theories/ScanProps.v
theories/TrieModel.v
theories/TrieSpec.v
theories/TrieScanSpec.v
theories/TrieProofs1.v
theories/TrieProofs2.v
theories/TrieProofs3.v
theories/TrieProofs4.v
theories/TrieProofs5.v
theories/TrieProofs6.v
theories/TrieProofs7.v
theories/TrieProofs8.v
theories/TrieProofs9.v
theories/TrieProofs10.v
theories/TrieProofs11.v
theories/TrieProofs12.v
theories/TrieProofs13.v
theories/TrieProofs14.v
theories/TrieProps.v
theories/OpModel.v
theories/OpSpec.v
theories/OpProofs1.v
theories/OpProofs2.v
theories/OpProofs3.v
theories/OpProofs4.v
theories/OpProofs5.v
theories/OpProofs6.v
theories/OpProofs7.v
theories/OpProofs8.v
theories/ProjModel.v
theories/ProjSpec.v
theories/ProjProofs1.v
theories/ProjProofs2.v
theories/ProjProofs3.v
theories/ProjProofs4.v
theories/ProjProofs5.v
theories/OpProps.v
theories/AggModel.v
theories/AggSpec.v
theories/AggProofs1.v
theories/AggProofs2.v
theories/AggProofs3.v
theories/AggProofs4.v
theories/AggProofs5.v
theories/AggProofs6.v
theories/AggProps.v
theories/BufferModel.v
theories/BufferSpec.v
theories/BufferProofs.v
theories/BufferProps.v
theories/BytesDictModel.v
theories/BytesDictSpec.v
theories/BytesDictProofs.v
theories/BytesDictProps.v
theories/DictModel.v
theories/DictSpec.v
theories/DictProofs1.v
theories/DictProofs2.v
theories/DictProofs3.v
theories/DictProofs4.v
theories/DictProofs5.v
theories/DictProps.v
theories/OrderModel.v
theories/OrderSpec.v
theories/OrderProofs.v
theories/OrderProofs2.v
theories/OrderProps.v
theories/NormModel.v
theories/NormSpec.v
theories/NormProofs1.v
theories/NormProofs2.v
theories/NormProofs3.v
theories/NormProofs4.v
theories/NormProofs5.v
theories/NormProofs6.v
theories/NormProofs7.v
theories/NormProps.v
theories/TraceModel.v
theories/TraceSpec.v
theories/TraceProofs1.v
theories/TraceProofs2.v
theories/TraceProofs3.v
theories/TraceProofs4.v
theories/TraceProofs5.v
theories/TraceProps.v
theories/LexModel.v
theories/LexSpec.v
theories/LexProofs1.v
theories/LexProofs2.v
theories/LexProofs3.v
theories/LexProofs4.v
theories/LexProofs5.v
theories/LexProofs6.v
theories/LexProps.v
theories/DsvModel.v
theories/DsvSpec.v
theories/DsvProofs1.v
theories/DsvProofs2.v
theories/DsvProofs3.v
theories/DsvProps.v
theories/StoreModel.v
theories/StoreSpec.v
theories/StoreProofs1.v
theories/StoreProofs2.v
theories/StoreProofs3.v
theories/StoreProofs4.v
theories/StoreProps.v
theories/PlanModel.v
theories/PlanSpec.v
theories/PlanProofs1.v
theories/PlanProofs2.v
theories/PlanProofs3.v
theories/PlanProofs4.v
theories/PlanProofs5.v
theories/PlanProofs6.v
theories/PlanProofs7.v
theories/PlanProofs8.v
theories/PlanProofs9.v
theories/PlanProps.v
theories/TextModel.v
theories/TextSpec.v
theories/TextProofs.v
theories/TextProofs2.v
theories/TextProps.v
theories/CastModel.v
theories/CastSpec.v
theories/CastProofs.v
theories/CastProps.v
theories/FilterImpModel.v
theories/FilterImpSpec.v
theories/FilterImpProofs1.v
theories/FilterImpProofs2.v
theories/FilterImpProofs3.v
theories/FilterImpProofs4.v
theories/FilterImpProofs5.v
theories/FilterImpProofs6.v
theories/FilterImpProps.v
theories/PipeModel.v
theories/PipeSpec.v
theories/PipeProofs1.v
theories/PipeProofs2.v
theories/PipeProofs3.v
theories/PipeProofs4.v
theories/PipeProofs5.v
theories/PipeProps.v
theories/ParseModel.v
theories/ParseSpec.v
theories/ParseProofs1.v
theories/ParseProofs2.v
theories/ParseProofs3.v
theories/ParseProofs4.v
theories/ParseProofs5.v
theories/ParseProofs6.v
theories/ParseProps.v
theories/NumLitModel.v
theories/NumLitSpec.v
theories/NumLitProofs.v
theories/NumLitProps.v
theories/PrintTermModel.v
theories/PrintTermSpec.v
theories/PrintTermProofs1.v
theories/PrintTermProofs2.v
theories/PrintTermProofs3.v
theories/PrintTermProofs4.v
theories/PrintTermProps.v
theories/InlineModel.v
theories/InlineSpec.v
theories/InlineProofs1.v
theories/InlineProofs2.v
theories/InlineProofs3.v
theories/InlineProofs4.v
theories/InlineProps.v
theories/QueryModel.v
theories/QuerySpec.v
theories/QueryProofs1.v
theories/QueryProofs2.v
theories/QueryProofs3.v
theories/QueryProofs4.v
theories/QueryProofs5.v
theories/QueryProps.v
theories/RuleMergeModel.v
theories/RuleMergeSpec.v
theories/RuleMergeProofs1.v
theories/RuleMergeProofs2.v
theories/RuleMergeProofs3.v
theories/RuleMergeProps.v
theories/PageModel.v
theories/PageSpec.v
theories/PageProofs1.v
theories/PageProofs2.v
theories/PageProofs3.v
theories/PageProps.v
theories/RequestModel.v
theories/RequestSpec.v
theories/RequestProofs.v
theories/RequestNames.v
theories/RequestProps.v
theories/StageModel.v
theories/StageSpec.v
theories/StageProofs1.v
theories/StageProofs2.v
theories/StageProofs3.v
theories/StageProofs4.v
theories/StageProofs5.v
theories/StageProofs6.v
theories/StageProofs7.v
theories/StageProps.v
theories/PrintValueModel.v
theories/PrintValueSpec.v
theories/PrintValueProofs1.v
theories/PrintValueProofs2.v
theories/PrintValueProofs3.v
theories/PrintValueProofs4.v
theories/PrintValueProps.v
theories/FstringModel.v
theories/FstringSpec.v
theories/FstringProofs.v
theories/FstringProps.v
theories/JsonModel.v
theories/JsonSpec.v
theories/JsonProofs.v
theories/JsonProps.v
theories/BitsetModel.v
theories/BitsetSpec.v
theories/BitsetProofs.v
theories/BitsetProps.v
