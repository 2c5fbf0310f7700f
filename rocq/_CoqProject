-Q theories Verif
theories/Base.v
theories/Utf8.v
theories/Utf8Facts.v
theories/RouteTrie.v
theories/Router.v
theories/TableSpec.v
theories/BaseFacts.v
theories/TrieDen.v
theories/TrieIns.v
theories/TrieRep.v
theories/TrieBuild.v
theories/TrieSearch.v
theories/TrieLookup.v
theories/TrieTotal.v
theories/PropSpec.v
theories/RouteFacts.v
theories/RouteLemmas.v
theories/RouteLemmas2.v
theories/RouteLemmas3.v
theories/RouteLemmas4.v
theories/OwnPath.v
theories/TextSpec.v
theories/TextRep.v
theories/TextInv.v
theories/TextSearch.v
theories/TextOwn.v
theories/TextStar.v
theories/Rewalk.v
theories/TextCaught.v
theories/TextMore.v
theories/TextWitness.v
theories/RouteWitness.v
theories/AloneSpec.v
theories/AloneLemmas.v
theories/PropsRouting.v
theories/TextRoot.v
theories/TextServed.v
theories/PropsText.v
theories/Cost.v
theories/CostSpec.v
theories/CostLemmas.v
theories/CostLemmas2.v
theories/PropsCost.v
theories/PropsReply.v
theories/Http.v
theories/App.v
theories/AppSpec.v
theories/AppLemmas.v
theories/AppLemmas2.v
theories/AppLemmas3.v
theories/AppLemmas4.v
theories/AppWitness.v
theories/Conformance.v
theories/PropsApp.v
theories/PropsStatic.v
theories/UrlEncoded.v
theories/Form.v
theories/FormSpec.v
theories/UrlFacts.v
theories/UrlSpec.v
theories/UrlLemmas.v
theories/FormLemmas.v
theories/FormLemmas2.v
theories/FormLemmas3.v
theories/FormWitness.v
theories/UserSpec.v
theories/UserLemmas.v
theories/UserLemmas2.v
theories/UserLemmas3.v
theories/StarLemmas.v
theories/StaticLemmas.v
theories/ReplySpec.v
theories/ReplyLemmas.v
theories/ReplyLemmas2.v
theories/UserWitness.v
theories/FormLemmas4.v
theories/FormLemmas5.v
theories/FormLemmas6.v
theories/LogSpec.v
theories/MoreLemmas.v
theories/PropsForm.v
theories/PropsUser.v
theories/PropsReach.v
theories/Server.v
theories/ServerSpec.v
theories/ServerLemmas.v
theories/PropsServer.v
theories/AppCalls.v
theories/AppCallsSpec.v
theories/AppCallsLemmas.v
theories/PropsCalls.v
theories/Wire.v
theories/WireSpec.v
theories/WireLemmas.v
theories/PropsWire.v
theories/Adjacent.v
theories/AdjacentSpec.v
theories/AdjacentLemmas.v
theories/PropsAdjacent.v
theories/Alias.v
theories/AliasSpec.v
theories/AliasLemmas.v
theories/AliasLemmas2.v
theories/AliasWitness.v
theories/PropsAlias.v
theories/ErrorSpec.v
theories/ErrorLemmas.v
theories/ErrorLemmas2.v
theories/ErrorLemmas3.v
theories/ErrorWitness.v
theories/PropsError.v
theories/ConformanceApps.v
theories/Json.v
theories/JsonSpec.v
theories/JsonLemmas.v
theories/JsonLemmas2.v
theories/JsonLemmas3.v
theories/JsonLemmas4.v
theories/JsonLemmas5.v
theories/JsonLemmas6.v
theories/JsonLemmas7.v
theories/JsonLemmas8.v
theories/JsonLemmas9.v
theories/PropsJson.v
theories/OneLineLemmas.v
theories/PropsOneLine.v
theories/JsonAlias.v
theories/JsonAliasSpec.v
theories/JsonAliasLemmas.v
theories/JsonAliasWitness.v
theories/PropsJsonAlias.v
theories/PathSpec.v
theories/PathLemmas.v
theories/PropsPath.v
theories/ContentLemmas.v
theories/PropsContent.v
theories/ConformanceJson.v
theories/Names.v
theories/NamesSpec.v
theories/NamesLemmas.v
theories/PropsNames.v
theories/LineLemmas.v
theories/PropsLine.v
theories/SentSpec.v
theories/SentLemmas.v
theories/PropsSent.v
theories/ThroughSpec.v
theories/ThroughLemmas.v
theories/ThroughWitness.v
theories/PropsThrough.v
theories/BackLemmas.v
theories/BackReply.v
theories/PropsBack.v
theories/GuardSpec.v
theories/GuardLemmas.v
theories/GuardWitness.v
theories/PropsGuard.v
theories/DataSpec.v
theories/DataLemmas.v
theories/DataWitness.v
theories/PropsData.v
theories/Messages.v
theories/MessageSpec.v
theories/MessageSpots.v
theories/MessageCuts.v
theories/MessageLemmas.v
theories/MessageWitness.v
theories/PropsMessage.v
theories/ConformanceMain.v
