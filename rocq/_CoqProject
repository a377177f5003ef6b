-Q theories Verif
theories/Model/Base.v
theories/Model/Ip.v
theories/Model/Hosts.v
theories/Spec/AddrSpec.v
theories/Proofs/LoopFacts.v
theories/Proofs/IpFacts.v
theories/Proofs/WildFacts.v
theories/Proofs/AndFacts.v
theories/Props/Overlap.v
theories/Proofs/MaskFacts.v
theories/Proofs/SortFacts.v
theories/Proofs/SummarizeFacts.v
theories/Proofs/CollapseFacts.v
theories/Model/Groups.v
theories/Spec/GroupSpec.v
theories/Proofs/GroupFacts.v
theories/Proofs/GroupOps.v
theories/Props/Addresses.v
theories/Props/Expand.v
theories/Props/Collapse.v
theories/Spec/SortSpec.v
theories/Props/Sorting.v
theories/Props/Filter.v
theories/Props/FilterExpand.v
theories/Props/Nat.v
theories/Props/Config.v
theories/Props/Ifaces.v
theories/Props/Ports.v
theories/Props/Refs.v
theories/Props/Detect.v
theories/Props/Resolve.v
theories/Props/Pfsense.v
theories/Props/PfAliases.v
theories/Props/Define.v
theories/Props/CafText.v
theories/Model/Fnmatch.v
theories/Spec/GlobSpec.v
theories/Proofs/GlobFacts.v
theories/Model/Rules.v
theories/Model/Caf.v
theories/Model/Nat.v
theories/Model/Iface.v
theories/Model/Config.v
theories/Model/Ports.v
theories/Model/Peg.v
theories/Model/Ids.v
theories/Model/Detect.v
theories/Model/Resolve.v
theories/Model/Pfsense.v
theories/Model/Define.v
theories/Model/AddrText.v
theories/Model/CafText.v
theories/Spec/AddrTextSpec.v
theories/Proofs/AddrTextFacts.v
theories/Spec/CafTextSpec.v
theories/Proofs/CafTextFacts.v
theories/Proofs/TokFacts.v
theories/Proofs/CafParse.v
theories/Proofs/CafExpr.v
theories/Spec/CafMeanSpec.v
theories/Spec/CafShow.v
theories/Proofs/CafMean.v
theories/Proofs/CafShowFacts.v
theories/Proofs/Addr6Facts.v
theories/Spec/FilterSpec.v
theories/Proofs/FilterFacts.v
theories/Spec/CafSpec.v
theories/Spec/NatSpec.v
theories/Spec/ConfigSpec.v
theories/Spec/RefSpec.v
theories/Spec/ResolveSpec.v
theories/Spec/PfSpec.v
theories/Proofs/DictFacts.v
theories/Proofs/PegFacts.v
theories/Proofs/ResolveFacts.v
theories/Proofs/PfFacts.v
theories/Proofs/Utf8Facts.v
theories/Proofs/PfRule.v
theories/Proofs/PfIface.v
theories/Proofs/CafFacts.v
theories/Model/AclText.v
theories/Props/AddrText.v
theories/Spec/AclTextSpec.v
theories/Proofs/LineFacts.v
theories/Proofs/AclTextFacts.v
theories/Proofs/AclOptFacts.v
theories/Props/AclText.v
theories/Model/GroupText.v
theories/Spec/GroupTextSpec.v
theories/Proofs/GroupTextFacts.v
theories/Props/GroupText.v
theories/Model/ObjText.v
theories/Spec/ObjTextSpec.v
theories/Proofs/ObjTextFacts.v
theories/Props/ObjText.v
theories/Model/LineText.v
theories/Spec/RefusedSpec.v
theories/Spec/LineTextSpec.v
theories/Proofs/RefusedFacts.v
theories/Proofs/LineTextFacts.v
theories/Props/LineText.v
theories/Model/NatText.v
theories/Spec/NatTextSpec.v
theories/Proofs/NatTextFacts.v
theories/Proofs/NoErr.v
theories/Props/NatText.v
theories/Model/FileText.v
theories/Spec/FileTextSpec.v
theories/Proofs/FileTextFacts.v
theories/Proofs/FileFacts.v
theories/Props/FileText.v
theories/Spec/FileConfigSpec.v
theories/Props/FileConfig.v
theories/Model/FileFilter.v
theories/Model/IosText.v
theories/Spec/IosTextSpec.v
theories/Proofs/IosFacts.v
theories/Proofs/IosNumbers.v
theories/Props/IosText.v
theories/Props/IosList6.v
theories/Proofs/FileGood.v
theories/Spec/FileFilterSpec.v
theories/Props/FileFilter.v
theories/Model/IosFile.v
theories/Spec/IosFileSpec.v
theories/Proofs/IosLineFacts.v
theories/Props/IosGroups.v
theories/Props/IosIface.v
theories/Proofs/IosSkipFacts.v
theories/Proofs/IosCommandFacts.v
theories/Proofs/IosIpFacts.v
theories/Proofs/IosFileFacts.v
theories/Props/IosFileText.v
theories/Spec/IosConfigSpec.v
theories/Props/IosConfig.v
theories/Model/IosFilter.v
theories/Spec/IosFilterSpec.v
theories/Props/IosFilter.v
theories/Model/PfFile.v
theories/Model/Auto.v
theories/Spec/PfFileSpec.v
theories/Props/PfFile.v
theories/Spec/PfFilterSpec.v
theories/Spec/AutoSpec.v
theories/Spec/PipelineSpec.v
theories/Proofs/ExpandGood.v
theories/Props/PfFilter.v
theories/Props/Auto.v
theories/Props/Pipeline.v
theories/Model/AutoResolve.v
theories/Spec/AutoResolveSpec.v
theories/Proofs/ShownFacts.v
theories/Props/AutoResolve.v
theories/Model/AutoSort.v
theories/Spec/AutoSortSpec.v
theories/Props/AutoSort.v
theories/Model/AddrStr.v
theories/Spec/AddrStrSpec.v
theories/Proofs/AddrStrFacts.v
theories/Props/AddrStr.v
theories/Model/CafPrint.v
theories/Spec/CafPrintSpec.v
theories/Props/CafPrint.v
theories/Model/AutoPrint.v
theories/Props/AutoPrint.v
theories/Model/Manual.v
theories/Spec/ManualSpec.v
theories/Props/Manual.v
theories/Model/Server.v
theories/Spec/ServerSpec.v
theories/Props/Server.v
theories/Model/GroupPrint.v
theories/Spec/GroupPrintSpec.v
theories/Props/GroupPrint.v
theories/Props/Corpus.v
