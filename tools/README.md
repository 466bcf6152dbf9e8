tools: props.py / manifest.py regenerate properties.jsonl and MANIFEST.json.
