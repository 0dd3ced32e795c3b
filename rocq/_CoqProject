-Q theories Verif
theories/BitsModel.v
theories/BitsSpec.v
theories/BitsProofs.v
theories/FanoutProofs.v
theories/ArrayProofs.v
theories/BitsProps.v
theories/ConcatModel.v
theories/ConcatSpec.v
theories/ConcatProofs.v
theories/ConcatFat.v
theories/YfProofs.v
theories/ConcatProps.v
theories/CellModel.v
theories/CellProps.v
theories/HeapqModel.v
theories/HeapqProofs.v
theories/AgendaModel.v
theories/AgendaSpec.v
theories/AgendaProofs.v
theories/AgendaProps.v
theories/CAgendaModel.v
theories/CAgendaSpec.v
theories/CAgendaProofs.v
theories/CAgendaProps.v
theories/MergeModel.v
theories/MergeProps.v
theories/PyStr.v
theories/UtilModel.v
theories/UtilProps.v
theories/TreeModel.v
theories/TreeProps.v
theories/BracketModel.v
theories/BracketProofs.v
theories/EscapeProofs.v
theories/BracketIO.v
theories/BracketProps.v
theories/BinarizeModel.v
theories/BinarizeProps.v
theories/TransformModel.v
theories/SortProofs.v
theories/ContsetsProofs.v
theories/TransformProps.v
theories/SplitProofs.v
theories/MergeDisc.v
theories/SplitProps.v
theories/LcfrsModel.v
theories/LcfrsProps.v
theories/GrammarModel.v
theories/GrammarProofs.v
theories/GrammarProps.v
theories/TreebankModel.v
theories/TreebankProps.v
theories/EvalModel.v
theories/EvalProps.v
theories/LevProps.v
theories/ClosureProps.v
theories/DopModel.v
theories/DopSpec.v
theories/DopProofs.v
theories/GoodmanProofs.v
theories/DopLink.v
theories/DopProps.v
theories/DiscTreeProps.v
theories/DopMemoProps.v
theories/SumModel.v
theories/SumProps.v
theories/ParentModel.v
theories/ParentProps.v
theories/PartitionModel.v
theories/PartitionProps.v
theories/KbestModel.v
theories/KbestSpec.v
theories/KbestProofs.v
theories/KbestProofs2.v
theories/KbestProps.v
theories/CkyModel.v
theories/CkySpec.v
theories/CkyProofs.v
theories/CkyProofs2.v
theories/CkyProofs3.v
theories/CkyProofs4.v
theories/CkyProps.v
theories/TedModel.v
theories/TedSpec.v
theories/TedProofs.v
theories/TedProofs2.v
theories/TedProofs3.v
theories/TedProofs4.v
theories/TedProps.v
theories/PunctModel.v
theories/PunctSpec.v
theories/PunctProofs.v
theories/PunctProofs2.v
theories/PunctProofs3.v
theories/PunctProps.v
theories/ExportModel.v
theories/ExportSpec.v
theories/ExportProofs.v
theories/ExportProofs2.v
theories/ExportProofs3.v
theories/ExportProofs4.v
theories/ExportProps.v
theories/MarkovProps.v
theories/SpanProps.v
theories/PlcfrsModel.v
theories/PlcfrsSpec.v
theories/PlcfrsProofs.v
theories/PlcfrsProofs2.v
theories/PlcfrsProps.v
theories/FragModel.v
theories/FragSpec.v
theories/FragProofs.v
theories/FragProofs2.v
theories/FragProofs3.v
theories/FragProofs4.v
theories/FragProofs5.v
theories/FragProofs6.v
theories/FragProofs7.v
theories/FragProps.v
theories/InOutModel.v
theories/InOutSpec.v
theories/InOutProofs.v
theories/InOutProofs2.v
theories/InOutProps.v
theories/CtfModel.v
theories/CtfProofs.v
theories/CtfProps.v
theories/VocabModel.v
theories/VocabSpec.v
theories/VocabProofs.v
theories/VocabProofs2.v
theories/VocabProps.v
theories/FragParModel.v
theories/FragParSpec.v
theories/FragParProofs.v
theories/FragParProofs2.v
theories/FragParProofs3.v
theories/FragParProps.v
theories/ExpModel.v
theories/ExpSpec.v
theories/ExpProofs.v
theories/ExpProps.v
theories/DDopModel.v
theories/DDopSpec.v
theories/DDopProofs.v
theories/DDopProofs2.v
theories/DDopProofs3.v
theories/DDopProofs4.v
theories/DDopProofs5.v
theories/DDopProofs6.v
theories/DDopProofs7.v
theories/DDopProofs8.v
theories/DDopProofs9.v
theories/DDopProps.v
theories/DisambModel.v
theories/DisambSpec.v
theories/DisambProofs.v
theories/DisambProofs2.v
theories/DisambProofs3.v
theories/DisambProps.v
theories/McpModel.v
theories/McpSpec.v
theories/McpProofs.v
theories/McpProofs2.v
theories/McpProofs3.v
theories/McpProofs4.v
theories/McpProps.v
theories/EstModel.v
theories/EstSpec.v
theories/EstProofs.v
theories/EstProofs2.v
theories/EstProps.v
theories/AstarModel.v
theories/AstarSpec.v
theories/AstarProofs.v
theories/AstarProofs2.v
theories/AstarProps.v
theories/ETransModel.v
theories/ETransSpec.v
theories/ETransProofs.v
theories/ETransProofs2.v
theories/ETransProps.v
theories/LexModel.v
theories/LexProps.v
theories/BinModel.v
theories/BinProofs.v
theories/BinProofs2.v
theories/BinProps.v
theories/HeadModel.v
theories/HeadProofs.v
theories/HeadProps.v
theories/DepProofs.v
theories/DepProps.v
theories/SearchModel.v
theories/SearchProofs.v
theories/SearchProps.v
theories/OptModel.v
theories/OptProofs.v
theories/OptProofs2.v
theories/OptProps.v
theories/PipeModel.v
theories/PipeProps.v
theories/GenModel.v
theories/GenProps.v
theories/LPipeModel.v
theories/LPipeProps.v
theories/SegModel.v
theories/SegProps.v
theories/RrModel.v
theories/RrProps.v
theories/RunModel.v
theories/RunProps.v
theories/FuncModel.v
theories/FuncProps.v
theories/ParseModel.v
theories/ParseProps.v
theories/RaiseModel.v
theories/RaiseProps.v
theories/OrderModel.v
theories/OrderProps.v
theories/XformModel.v
theories/XformProps.v
theories/ThreshModel.v
theories/ThreshProps.v
theories/CollapseModel.v
theories/CollapseProps.v
theories/SldopModel.v
theories/SldopProps.v
theories/DopProbModel.v
theories/DopProbProps.v
theories/FragDerModel.v
theories/FragDerProps.v
theories/SwitchModel.v
theories/SwitchProps.v
theories/LookupModel.v
theories/LookupProps.v
theories/MappingModel.v
theories/MappingProps.v
theories/GetyfModel.v
theories/GetyfProps.v
theories/TbfanModel.v
theories/TbfanProps.v
theories/TwotermModel.v
theories/TwotermProps.v
